(** C51: IDELinearConstantAnalysis from program to reported constants.

    [solved G P follow S st T] (IDESolverModel.v): a complete run of the IDE
    solver, in any order of work items, with value table T.  [exec p main c]
    (LCAProgramSpec.v): an execution of the program reaches c. *)
From Coq Require Import List Bool ZArith Arith Lia.
From Verif Require Import Assoc TableModel LatticeModel LCAModel LCASpec
  IDESolverModel IDESpec IDEProperties EdgeFunctionModel
  LCAProgramModel LCAProgramSpec LCAProgramProofs LCAProgramSim LCAProgramTerm.
Import ListNotations.

(** Whatever a simple program does, the value reported for an integer, a local
    variable or a global variable is bottom or the value it has in that moment.
    Missing for the whole IR: see [simple] and the refutations below. *)
Theorem C51_reported_constants_are_the_values_partial :
  forall (N F : Type) (EN : EqDec N) (EF : EqDec F) (soo : bool) (p : prog N F) (main : F) (follow : bool) st T,
  prog_wf p -> simple p main ->
  solved (lcaICFG p) (lcaProblem soo p) follow (lcaSeeds p main) st T ->
  forall n E K M k, exec p main (n, E, K, M, k) ->
  let report d z := valueAt (lcaProblem soo p) T n d = LBot \/ valueAt (lcaProblem soo p) T n d = LVal z in
  (forall x z, numeric p main (Val x) -> E x = Some (CInt z) -> report (Val x) z) /\
  (forall m l z, code p m = IAlloca true -> E (VInst m) = Some (CPtr l) -> M l = CInt z -> report (Val (VInst m)) z) /\
  (forall g z, In g (map fst (inits p)) -> M (LGlob g) = CInt z -> report (Val (VGlob g)) z).
Proof.
  intros N F EN EF soo p main follow st T WF SI SO n E K M k EX report.
  assert (RE : forall d z, covers soo p main (sites K) n d z -> report d z).
  { intros d z (lv & R & V).
    pose proof (C01_results_cover_every_valid_path N F _ lval _ EN EF _ (lcaICFG p) (lcaProblem soo p) follow
      (lca_icfg_wf p WF) (lca_lattice soo p) (lca_ef_sound soo p) (lcaSeeds p main) st T (lca_seeds_at_starts p WF main) SO _ n d lv R) as L.
    apply (proj1 (lle_iff _ _)) in L. unfold report. destruct V as [->| ->], L as [X|[X|X]]; try discriminate; rewrite ?X; auto. }
  pose proof (inv_exec soo p main WF SI _ EX) as [ST GL]. pose proof (frame_of soo p main _ _ _ _ _ ST) as FO.
  split; [|split].
  - intros x z NX EX'. apply RE. eapply (fo_num _ _ _ _ _ _ _ _ FO); [exact EX'|now left|reflexivity].
  - intros m l z C EX' V. apply RE. eapply (fo_cell _ _ _ _ _ _ _ _ FO); eauto. now rewrite V.
  - intros g z Hg V. apply RE. apply GL; auto. now rewrite V.
Qed.
Print Assumptions C51_reported_constants_are_the_values_partial.

(** The analysis terminates, on every program. *)
Theorem C51_terminates :
  forall (N F : Type) (EN : EqDec N) (EF : EqDec F) (soo : bool) (p : prog N F) (main : F) (follow : bool) (funs : list F),
  prog_wf p -> (forall f, In f funs) ->
  exists fuel st T, solve (lcaICFG p) (lcaProblem soo p) follow fuel (lcaSeeds p main) = Some (st, T).
Proof.
  intros N F EN EF soo p main follow funs WF FU.
  exact (C05_solver_terminates N F _ lval _ EN EF _ (lcaICFG p) (lcaProblem soo p) follow (lca_icfg_wf p WF) (lca_lattice soo p)
    (lcaSeeds p main) (nodes p) (factsOf p funs) erank vrank (pw_nodes p WF)
    (lca_facts soo p funs FU (pw_nodes p WF) main) (lca_height soo p)).
Qed.
Print Assumptions C51_terminates.

(** BinOps are only made for facts on which they do not end in
    report_fatal_error (the operands of an instruction are not the zero value). *)
Theorem C51_edges_are_linear :
  forall (N F : Type) (EN : EqDec N) (EF : EqDec F) (p : prog N F) n n' d w nsw op l r,
  code p n = IBin w nsw op l r -> l <> Zero -> r <> Zero -> (forall w v, d <> Const w v) -> d <> Val (VInst n) ->
  In (Val (VInst n)) (normalFlow p n n' d) ->
  normalEdge p n d n' (Val (VInst n)) = botE \/
  exists b H, proj1_sig (normalEdge p n d n' (Val (VInst n))) = EUser (exist _ b H) /\ forall x, computeTarget b x <> Fatal.
Proof.
  intros N F EN EF p n n' d w nsw op l r EC Hl Hr Hd Dn Hf.
  unfold normalEdge. cbn [isZero]. rewrite andb_false_r, EC, eqb_refl. rewrite (proj2 (Assoc.eqb_false _ _) Dn). cbn [andb negb].
  destruct (nonlinear l r d) eqn:NL; auto. right.
  assert (FI : flowsIn l r d = true).
  { unfold normalFlow in Hf. rewrite EC in Hf. unfold generateIf in Hf. destruct (flowsIn l r d); auto. destruct Hf as [X|[]]. contradiction. }
  pose proof (flow_linear op l r d Hl Hr Hd FI NL) as LI.
  unfold binE. destruct (bool_dec _ true) as [H|H]; [|contradiction]. exists (mkBinOp op l r d), H. split; [reflexivity|].
  intros x. assert (B : forall o a b, execute o a b <> Fatal).
  { intros o a b. destruct a, b; try discriminate. destruct o; cbn; try discriminate; repeat match goal with |- context [if ?c then _ else _] => destruct c end; discriminate. }
  unfold linear in LI. unfold computeTarget. cbn [bCur bL bR bOp] in *.
  destruct l as [|wl a|xl], r as [|wr b|xr]; try (now elim Hl); try (now elim Hr); cbn [sext] in *.
  - apply eqb_eq in LI. subst d. apply B.
  - apply andb_true_iff in LI as [LI _]. apply eqb_eq in LI. subst d. rewrite (eqb_refl (Val xr)).
    destruct x; try discriminate; destruct (eqb _ _); apply B.
  - apply andb_true_iff in LI as [LI _]. apply eqb_eq in LI. subst d. rewrite (eqb_refl (Val xl)). destruct x; try discriminate; apply B.
Qed.
Print Assumptions C51_edges_are_linear.

(** ** programs *)
Inductive nd := I0 | I1 | I2 | I3 | I4 | I5 | I6 | I7 | I8 | I9 | I10 | I11.
Inductive fd := Main | Fun | Ext.
#[global] Instance EqDec_nd : EqDec nd. Proof. intros x y. change ({x = y} + {x <> y}). decide equality. Defined.
#[global] Instance EqDec_fd : EqDec fd. Proof. intros x y. change ({x = y} + {x <> y}). decide equality. Defined.
Definition allNd := [I0; I1; I2; I3; I4; I5; I6; I7; I8; I9; I10; I11].
Local Notation V n := (Val (VInst n)).
Local Notation C z := (Const 32 z%Z).

(** [body]: main starts at I0, Fun at I8; Ext is declared *)
Definition program (cd : nd -> instr nd fd) (sc : nd -> list nd) (np : fd -> nat) (ptr : var nd fd -> bool) (ini : list (nat * Z)) : prog nd fd :=
  mkProg cd sc (fun n => match n with I8 | I9 | I10 | I11 => Fun | _ => Main end)
    (fun f => match f with Main => Some I0 | Fun => Some I8 | Ext => None end)
    np (fun _ => false) (fun _ => false) (fun _ => []) ptr ini allNd.

(** the constant [z] is reported at n for d, but an execution is there with another number *)
Definition wrong (p : prog nd fd) (n : nd) (x : var nd fd) : Prop :=
  prog_wf p /\ exists fuel st T z z' E K M k,
    solve (lcaICFG p) (lcaProblem false p) false fuel (lcaSeeds p Main) = Some (st, T) /\
    valueAt (lcaProblem false p) T n (Val x) = LVal z /\
    exec p Main (n, E, K, M, k) /\ E x = Some (CInt z') /\ z' <> z.

Lemma program_wf cd sc np ptr ini :
  (forall n n', In n' (sc n) -> n' <> I0 /\ n' <> I8 /\ (match n with I8 | I9 | I10 | I11 => Fun | _ => Main end = match n' with I8 | I9 | I10 | I11 => Fun | _ => Main end)) ->
  prog_wf (program cd sc np ptr ini).
Proof.
  intros H. split; cbn.
  - intros []; cbn; auto 15.
  - intros n n' I'. symmetry. apply (H n n' I').
  - intros [] sp [= <-]; reflexivity.
  - intros n n' [] I' [= <-]; destruct (H _ _ I') as (A & B & _); congruence.
Qed.
Ltac wf := apply program_wf; intros [] n'; cbn; intuition (subst; auto; discriminate).

(** int x; if (?) x = 1; else x = <src>; v = x; *)
Definition joinProg (src : value nd fd) (mid : instr nd fd) np := program
  (fun n => match n with I0 => IAlloca true | I1 => IOther | I2 => IStore (C 1) (V I0) (V I0) true
    | I3 => mid | I4 => IStore src (V I0) (V I0) true | I5 => ILoad (V I0) true | I6 => IRet (Some (V I5)) | _ => IOther end)
  (fun n => match n with I0 => [I1] | I1 => [I2; I3] | I2 => [I5] | I3 => [I4] | I4 => [I5] | I5 => [I6] | _ => [] end)
  np (fun x => match x with VInst I0 => true | _ => false end) [].

Lemma wrong_run (p : prog nd fd) n x z z' : prog_wf p ->
  match solve (lcaICFG p) (lcaProblem false p) false 500 (lcaSeeds p Main) with
  | Some (_, T) => valueAt (lcaProblem false p) T n (Val x) = LVal z
  | None => False
  end ->
  (exists E K M k, exec p Main (n, E, K, M, k) /\ E x = Some (CInt z')) -> z' <> z -> wrong p n x.
Proof.
  intros WF HS (E & K & M & k & HE & HX) HZ. split; auto. destruct (solve _ _ _ _ _) as [[st T]|] eqn:ES; [|destruct HS].
  exists 500, st, T, z, z', E, K, M, k. auto.
Qed.
Definition noE : env := fun _ : var nd fd => None.
Ltac go H s := eapply ex_step in H; [|s; try reflexivity; try (cbn; auto; fail)].
Ltac fin H := eexists _, _, _, _; split; [exact H|reflexivity].

Lemma join_run src mid np E0 E1 M1 : let p := joinProg src mid np in
  exec p Main (I0, E0, [], (fun _ => CInt 0), 0) ->
  (forall E M k, E (VInst I0) = Some (CPtr (LMem 0)) -> E (VArg Main 0) = E0 (VArg Main 0) ->
     step p (I3, E, [], M, k) (I4, E1 E, [], M1 M, k) /\
     eval (E1 E) (V I0) = Some (CPtr (LMem 0)) /\ eval (E1 E) src = Some (CInt 7)) ->
  exists E K M k, exec p Main (I6, E, K, M, k) /\ E (VInst I5) = Some (CInt 7).
Proof.
  intros p H HS.
  go H ltac:(eapply (st_alloca p I0 I1) with (u := CInt 0)).
  go H ltac:(eapply (st_other p I1 I3) with (z := 0%Z)).
  match type of H with exec _ _ (_, ?E, _, ?M, ?k) => destruct (HS E M k eq_refl eq_refl) as (S1 & S2 & S3) end.
  eapply ex_step in H; [|exact S1].
  eapply ex_step in H; [|eapply (st_store p I4 I5); [reflexivity|now left|exact S2|exact S3]].
  eapply ex_step in H; [|eapply (st_load p I5 I6); [reflexivity|now left|exact S2]].
  fin H.
Qed.

(** The value of a fact that the analysis does not follow is no value at all, not an
    unknown one: storing it deletes the fact of the variable, and after a join the
    constant of the other branch remains.  (a) the result of a function without a
    body, (b) a parameter of main, (c) the result of any other instruction, e.g. a
    cast. *)
Theorem C51_unknown_result_refuted :
  wrong (joinProg (V I3) (ICall [Ext] []) (fun _ => 0)) I6 (VInst I5) /\
  wrong (joinProg (Val (VArg Main 0)) IOther (fun _ => 1)) I6 (VInst I5) /\
  wrong (joinProg (V I3) IOther (fun _ => 0)) I6 (VInst I5).
Proof.
  split; [|split].
  - apply (wrong_run _ I6 (VInst I5) 1 7); [wf|vm_compute; reflexivity| |discriminate].
    apply (join_run _ _ _ noE (fun E => upd E (VInst I3) (CInt 7)) (fun M => M)).
    + apply ex_start; [reflexivity|discriminate|intros g z []].
    + intros E M k H0 _. split; [|now split]. eapply (st_extern _ I3 I4); [reflexivity|now left|reflexivity|now left|auto].
  - apply (wrong_run _ I6 (VInst I5) 1 7); [wf|vm_compute; reflexivity| |discriminate].
    apply (join_run _ _ _ (upd noE (VArg Main 0) (CInt 7)) (fun E => upd E (VInst I3) (CInt 0)) (fun M => M)).
    + apply ex_start; [reflexivity| |intros g z []]. intros x c. unfold upd. destruct (eq_dec _ x) as [<-|]; [|discriminate]. intros [= <-]. eauto.
    + intros E M k H0 H1. split; [|now split]. eapply (st_other _ I3 I4); [reflexivity|now left].
  - apply (wrong_run _ I6 (VInst I5) 1 7); [wf|vm_compute; reflexivity| |discriminate].
    apply (join_run _ _ _ noE (fun E => upd E (VInst I3) (CInt 7)) (fun M => M)).
    + apply ex_start; [reflexivity|discriminate|intros g z []].
    + intros E M k H0 _. split; [|now split]. eapply (st_other _ I3 I4); [reflexivity|now left].
Qed.
Print Assumptions C51_unknown_result_refuted.

Definition straight (cd : nd -> instr nd fd) np ptr ini := program cd
  (fun n => match n with I0 => [I1] | I1 => [I2] | I2 => [I3] | I3 => [I4] | I4 => [I5] | I5 => [I6] | I6 => [I7] | I7 => []
            | I8 => [I9] | I9 => [I10] | I10 => [I11] | I11 => [] end) np ptr ini.
Ltac start H p := assert (H : exec p Main (I0, noE, [], fun _ => CInt 0, 0)) by (apply ex_start; [reflexivity|discriminate|intros g z []]).

(** A function without a body does not write to the variables it gets the addresses
    of: int x = 1; scanf("%d", &x); *)
Definition scanfProg := straight
  (fun n => match n with I0 => IAlloca true | I1 => IStore (C 1) (V I0) (V I0) true | I2 => ICall [Ext] [V I0]
    | I3 => ILoad (V I0) true | _ => IOther end) (fun _ => 1) (fun x => match x with VInst I0 => true | _ => false end) [].
Theorem C51_external_write_refuted : wrong scanfProg I4 (VInst I3).
Proof.
  apply (wrong_run _ I4 (VInst I3) 1 7); [wf|vm_compute; reflexivity| |discriminate]. start H scanfProg.
  go H ltac:(eapply (st_alloca scanfProg I0 I1) with (u := CInt 0)).
  go H ltac:(eapply (st_store scanfProg I1 I2)).
  eapply ex_step in H; [|eapply (st_extern scanfProg I2 I3) with (z := 0%Z) (M' := write _ (LMem 0) (CInt 7));
    [reflexivity|now left|reflexivity|now left|intros l HL; apply write_other; intros <-; apply (HL (V I0)); [now left|reflexivity]]].
  go H ltac:(eapply (st_load scanfProg I3 I4)).
  fin H.
Qed.
Print Assumptions C51_external_write_refuted.

(** Pointers: (a) int x = 1, *q = &x; *q = 7; x is not 1 (b) within
    f(int *a, int *b) { *a = 1; *b = 7; return *a; } the analysis assumes that a and
    b differ, f(&x, &x) *)
Definition pointerProg := straight
  (fun n => match n with I0 => IAlloca true | I1 => IAlloca false | I2 => IStore (C 1) (V I0) (V I0) true
    | I3 => IStore (V I0) (V I1) (V I1) false | I4 => ILoad (V I1) false | I5 => IStore (C 7) (V I4) (V I4) true
    | I6 => ILoad (V I0) true | _ => IOther end) (fun _ => 0) (fun x => match x with VInst I0 | VInst I1 | VInst I4 => true | _ => false end) [].
Definition aliasProg := straight
  (fun n => match n with I0 => IAlloca true | I1 => ICall [Fun] [V I0; V I0]
    | I8 => IStore (C 1) (Val (VArg Fun 0)) (Val (VArg Fun 0)) true | I9 => IStore (C 7) (Val (VArg Fun 1)) (Val (VArg Fun 1)) true
    | I10 => ILoad (Val (VArg Fun 0)) true | I11 => IRet (Some (V I10)) | _ => IOther end)
  (fun f => match f with Fun => 2 | _ => 0 end) (fun x => match x with VInst I0 | VArg _ _ => true | _ => false end) [].
Theorem C51_pointers_refuted : wrong pointerProg I7 (VInst I6) /\ wrong aliasProg I2 (VInst I1).
Proof.
  split.
  - apply (wrong_run _ I7 (VInst I6) 1 7); [wf|vm_compute; reflexivity| |discriminate]. start H pointerProg.
    go H ltac:(eapply (st_alloca pointerProg I0 I1) with (u := CInt 0)).
    go H ltac:(eapply (st_alloca pointerProg I1 I2) with (u := CInt 0)).
    go H ltac:(eapply (st_store pointerProg I2 I3)).
    go H ltac:(eapply (st_store pointerProg I3 I4)).
    go H ltac:(eapply (st_load pointerProg I4 I5)).
    go H ltac:(eapply (st_store pointerProg I5 I6)).
    go H ltac:(eapply (st_load pointerProg I6 I7)).
    fin H.
  - apply (wrong_run _ I2 (VInst I1) 1 7); [wf|vm_compute; reflexivity| |discriminate]. start H aliasProg.
    go H ltac:(eapply (st_alloca aliasProg I0 I1) with (u := CInt 0)).
    eapply ex_step in H; [|eapply (st_call aliasProg I1) with (f := Fun)
      (E' := upd (upd noE (VArg Fun 0) (CPtr (LMem 0))) (VArg Fun 1) (CPtr (LMem 0))); try reflexivity; [now left| |]].
    2:{ intros [|[|[|i]]] a Ha; try discriminate Ha; injection Ha as <-; split; try reflexivity; discriminate. }
    2:{ intros x Hx. unfold upd. destruct (eq_dec _ x) as [<-|_]; [elim (Hx 1); auto; cbn; lia|]. destruct (eq_dec _ x) as [<-|_]; [|reflexivity].
        elim (Hx 0); auto; cbn; lia. }
    go H ltac:(eapply (st_store aliasProg I8 I9)).
    go H ltac:(eapply (st_store aliasProg I9 I10)).
    go H ltac:(eapply (st_load aliasProg I10 I11)).
    go H ltac:(eapply (st_ret aliasProg I11 I2)).
    fin H.
Qed.
Print Assumptions C51_pointers_refuted.

(** A global variable without ConstantInt initializer (extern int g) has no fact
    until it is assigned: if (?) g = 1; v = g; *)
Definition externProg := program
  (fun n => match n with I0 => IOther | I1 => IStore (C 1) (Val (VGlob 0)) (Val (VGlob 0)) true | I2 => ILoad (Val (VGlob 0)) true | _ => IOther end)
  (fun n => match n with I0 => [I1; I2] | I1 => [I2] | I2 => [I3] | _ => [] end)
  (fun _ => 0) (fun x => match x with VGlob _ => true | _ => false end) [].
Theorem C51_extern_global_refuted : wrong externProg I3 (VInst I2).
Proof.
  apply (wrong_run _ I3 (VInst I2) 1 0); [wf|vm_compute; reflexivity| |discriminate]. start H externProg.
  go H ltac:(eapply (st_other externProg I0 I2) with (z := 0%Z)).
  go H ltac:(eapply (st_load externProg I2 I3)).
  fin H.
Qed.
Print Assumptions C51_extern_global_refuted.

(** Arithmetic: (a) 2147483647 + 1 on i32 without nsw, (b) -1 udiv 2, (c) the
    overflow bit of llvm.sadd.with.overflow(5, 6) is the sum *)
Definition wrapProg := straight (fun n => match n with I0 => IBin 32 false Add (C 2147483647) (C 1) | _ => IOther end) (fun _ => 0) (fun _ => false) [].
Definition udivProg := straight (fun n => match n with I0 => IBin 32 false UDiv (C (-1)) (C 2) | _ => IOther end) (fun _ => 0) (fun _ => false) [].
Definition flagProg := straight (fun n => match n with I0 => IBinIntrin 32 Add (C 5) (C 6) Ext | I1 => IExtract (V I0) 1 true true | _ => IOther end)
  (fun _ => 2) (fun _ => false) [].
Theorem C51_arithmetic_refuted : wrong wrapProg I1 (VInst I0) /\ wrong udivProg I1 (VInst I0) /\ wrong flagProg I2 (VInst I1).
Proof.
  split; [|split].
  - apply (wrong_run _ I1 (VInst I0) 2147483648 (-2147483648)); [wf|vm_compute; reflexivity| |discriminate]. start H wrapProg.
    eapply ex_step in H; [|eapply (st_bin wrapProg I0 I1) with (c := (-2147483648)%Z); [reflexivity|now left|reflexivity|reflexivity|
      apply (comp 32 false Add _ _ 2147483647 1 2147483648); try reflexivity; try discriminate; unfold fits; cbn; lia]].
    fin H.
  - apply (wrong_run _ I1 (VInst I0) 0 2147483647); [wf|vm_compute; reflexivity| |discriminate]. start H udivProg.
    eapply ex_step in H; [|eapply (st_bin udivProg I0 I1) with (c := (2147483647)%Z); [reflexivity|now left|reflexivity|reflexivity|
      apply (comp 32 false UDiv _ _ 4294967295 2 2147483647); try reflexivity; try discriminate; unfold fits; cbn; lia]].
    fin H.
  - apply (wrong_run _ I2 (VInst I1) 11 0); [wf|vm_compute; reflexivity| |discriminate]. start H flagProg.
    eapply ex_step in H; [|eapply (st_overflow flagProg I0 I1) with (c := 11%Z) (flag := 0%Z); [reflexivity|now left|reflexivity|reflexivity|
      apply (comp 32 false Add _ _ 5 6 11); try reflexivity; try discriminate; unfold fits; cbn; lia|left; unfold inRange; cbn; lia]].
    go H ltac:(eapply (st_extract flagProg I1 I2)).
    fin H.
Qed.
Print Assumptions C51_arithmetic_refuted.

(** A simple program: int g = 3; do x = 5; while (?); g = f(x); return g; with
    f(a) = a + 1 *)
Definition goodProg := program
  (fun n => match n with I0 => IAlloca true | I1 => IStore (C 5) (V I0) (V I0) true | I2 => IOther
    | I3 => ILoad (V I0) true | I4 => ICall [Fun] [V I3] | I5 => IStore (V I4) (Val (VGlob 0)) (Val (VGlob 0)) true
    | I6 => ILoad (Val (VGlob 0)) true | I7 => IRet (Some (V I6))
    | I8 => IBin 32 true Add (Val (VArg Fun 0)) (C 1) | I9 => IRet (Some (V I8)) | _ => IOther end)
  (fun n => match n with I0 => [I1] | I1 => [I2] | I2 => [I1; I3] | I3 => [I4] | I4 => [I5] | I5 => [I6] | I6 => [I7] | I8 => [I9] | _ => [] end)
  (fun f => match f with Fun => 1 | _ => 0 end) (fun x => match x with VInst I0 | VGlob _ => true | _ => false end) [(0, 3%Z)].
Example good_simple : prog_wf goodProg /\ simple goodProg Main.
Proof.
  split; [wf|]. intros []; cbn; repeat split; auto; try discriminate; try lia; try congruence; try (now left).
  - destruct H as [<-|[]]. discriminate.
  - destruct H as [<-|[]]. reflexivity.
  - intros a [<-|[]]. reflexivity.
Qed.
Example good_reports : match solve (lcaICFG goodProg) (lcaProblem false goodProg) false 500 (lcaSeeds goodProg Main) with
  | Some (_, T) =>
      let at_ n x := valueAt (lcaProblem false goodProg) T n (Val x) in
      at_ I3 (VInst I0) = LVal 5%Z /\ at_ I8 (VArg Fun 0) = LVal 5%Z /\ at_ I3 (VGlob 0) = LVal 3%Z /\
      at_ I7 (VInst I6) = LVal 6%Z /\ at_ I7 (VGlob 0) = LVal 6%Z
  | None => False
  end.
Proof. vm_compute. repeat split; reflexivity. Qed.
Example good_runs : exists E K M k, exec goodProg Main (I9, E, K, M, k) /\ E (VInst I8) = Some (CInt 6) /\ length K = 1.
Proof.
  assert (H : exec goodProg Main (I0, noE, [], fun l => match l with LGlob _ => CInt 3 | _ => CInt 0 end, 0)).
  { apply ex_start; [reflexivity|discriminate|]. intros g z [[= <- <-]|[]]. reflexivity. }
  go H ltac:(eapply (st_alloca goodProg I0 I1) with (u := CInt 0)).
  go H ltac:(eapply (st_store goodProg I1 I2)).
  go H ltac:(eapply (st_other goodProg I2 I3) with (z := 0%Z)).
  go H ltac:(eapply (st_load goodProg I3 I4)).
  eapply ex_step in H; [|eapply (st_call goodProg I4) with (f := Fun) (E' := upd noE (VArg Fun 0) (CInt 5)); try reflexivity; [now left| |]].
  2:{ intros [|[|i]] a Ha; try discriminate Ha; injection Ha as <-; split; try reflexivity; discriminate. }
  2:{ intros x Hx. unfold upd. destruct (eq_dec _ x) as [<-|_]; [|reflexivity]. elim (Hx 0); auto; cbn; lia. }
  eapply ex_step in H; [|eapply (st_bin goodProg I8 I9) with (c := 6%Z); [reflexivity|now left|reflexivity|reflexivity|
      apply (comp 32 true Add _ _ 5 1 6); try reflexivity; unfold fits, inRange; cbn; lia]].
  eexists _, _, _, _. split; [exact H|]. split; reflexivity.
Qed.
(** ... and its calculation in Fun is linear *)
Example good_edge : exists b H, proj1_sig (normalEdge goodProg I8 (Val (VArg Fun 0)) I9 (V I8)) = EUser (exist _ b H) /\ computeTarget b (LVal 5%Z) = Ok (LVal 6%Z).
Proof.
  assert (H : linear (mkBinOp Add (Val (VArg Fun 0)) (C 1) (Val (VArg Fun 0) : value nd fd)) = true) by reflexivity.
  exists (mkBinOp Add (Val (VArg Fun 0)) (C 1) (Val (VArg Fun 0))), H. split; [|reflexivity].
  cbn -[binE]. unfold binE. destruct (bool_dec _ true) as [H'|H']; [|now elim H'].
  rewrite (Eqdep_dec.UIP_dec bool_dec H' H). reflexivity.
Qed.
