(** C67: uninitialised variables in the monotone framework. *)
From Coq Require Import List Bool Arith ZArith Lia.
From Verif Require Import Assoc MonoUninitModel MonoUninitSpec MonoUninitProofs.
From Verif Require IntraMonoModel IntraMonoSpec IntraMonoProofs IntraMonoCover.
Import ListNotations.

(** ** Containers *)
(** merge is the intersection; equal_to compares as sets; the flow adds the
    variables that are allocated and removes those that are set. *)
Theorem C67_containers code n l r x :
  (In x (merge l r) <-> In x l /\ In x r) /\ (equal_to l r = true <-> forall y, In y l <-> In y r) /\
  (In x (flow n (code n) l) <-> (code n = IAlloca /\ x = VInst n) \/ (In x l /\ ~ sets code n x)).
Proof. split; [apply in_merge|]. split; [apply equal_to_ok|apply in_flow]. Qed.
Print Assumptions C67_containers.

(** ** The solver ends *)
(** The values are intersections, yet start with the empty set: they grow. *)
Theorem C67_terminates c code starts : let P := problem code starts in
  IntraMonoSpec.graph c P -> IntraMonoSpec.entrySeeds c P ->
  exists fuel R, forall k, fuel <= k -> IntraMonoModel.solve c P k = Some R.
Proof.
  intros P Gr Es. destruct (solver_ends c code starts Gr Es) as (fuel & A & H). exists fuel. eexists. intros k L.
  unfold IntraMonoModel.solve, P. rewrite (H k L). reflexivity.
Qed.
Print Assumptions C67_terminates.

(** ** Paths *)
(** What is reported after an instruction has been allocated on every path to
    it, and no constant integer has been stored to it since. *)
Theorem C67_fresh_on_all_paths c code starts fuel R : let P := problem code starts in
  IntraMonoSpec.graph c P -> IntraMonoSpec.entrySeeds c P -> IntraMonoModel.solve c P fuel = Some R ->
  forall tr n x, path c (IntraMonoSpec.inV c P) tr n -> In x (IntraMonoModel.getResultsAt P n R) -> fresh code (tr ++ [n]) x.
Proof.
  intros P Gr Es So tr n x Pa I. unfold IntraMonoModel.solve in So.
  destruct (IntraMonoModel.loop c P fuel (IntraMonoModel.initialize c P)) as [A|] eqn:L; [|discriminate]. injection So as <-.
  destruct (final c code starts Gr fuel A Es L) as (S1 & S2 & S3).
  pose proof (path_V c code starts Gr tr n Pa) as Vn. pose proof (path_sound c code starts Gr A S1 S2 tr n Pa) as So.
  assert (J : In x (flow n (code n) (IntraMonoModel.get P n A))) by (unfold P; rewrite <- (S3 n Vn); exact I).
  apply in_flow in J. apply fresh_snoc. destruct J as [J|[J N]]; auto.
Qed.
Print Assumptions C67_fresh_on_all_paths.

(** In a function without loops nothing else is missed: a variable is reported
    exactly if it is so on every path. *)
Theorem C67_exact_without_loops c code starts fuel R rank : let P := problem code starts in
  IntraMonoSpec.graph c P -> IntraMonoSpec.predsExact c P -> IntraMonoSpec.entrySeeds c P ->
  (forall n m, IntraMonoSpec.inV c P n -> In m (IntraMonoModel.succs c n) -> rank n < rank m) ->
  IntraMonoModel.solve c P fuel = Some R ->
  forall n x, IntraMonoSpec.inV c P n ->
    (In x (IntraMonoModel.getResultsAt P n R) <-> forall tr, path c (IntraMonoSpec.inV c P) tr n -> fresh code (tr ++ [n]) x).
Proof.
  intros P Gr Pe Es Ac So n x Vn. split.
  - intros I tr Pa. exact (C67_fresh_on_all_paths c code starts fuel R Gr Es So tr n x Pa I).
  - intros H. unfold IntraMonoModel.solve in So.
    destruct (IntraMonoModel.loop c P fuel (IntraMonoModel.initialize c P)) as [A|] eqn:L; [|discriminate]. injection So as <-.
    destruct (final c code starts Gr fuel A Es L) as (S1 & S2 & S3).
    pose proof (closed_loop c code starts Gr fuel Pe _ A (init_edgesIn c code starts) (closed_init c code starts Gr Pe) L) as Cl.
    match goal with |- In x ?r => assert (E : r = flow n (code n) (IntraMonoModel.get P n A)) by exact (S3 n Vn); rewrite E; clear E end.
    apply in_flow. destruct (reached c code starts Gr rank Ac Pe (rank n) n eq_refl Vn) as (tr & Pa).
    pose proof (proj1 (fresh_snoc code tr n x) (H tr Pa)) as [F|[F N]]; [left; exact F|]. right. split; [|exact N].
    destruct (in_dec eq_dec x (IntraMonoModel.get P n A)) as [I|I]; [exact I|]. exfalso.
    destruct (not_known c code starts Gr rank Ac Pe A x Cl (rank n) n eq_refl Vn I) as (tr' & Pa' & F').
    destruct (proj1 (fresh_snoc code tr' n x) (H tr' Pa')) as [[Cn ->]|[F'' _]]; [|contradiction].
    destruct F as (be & a & si & E & _ & [= <-] & _). subst tr.
    assert (G : forall t m, path c (IntraMonoSpec.inV c P) t m -> forall k, In k t -> rank k < rank m).
    { induction 1 as [m Vm Pm|t m m' Pt IH Im]; intros k Ik; [destruct Ik|]. apply in_app_or in Ik.
      pose proof (Ac m m' (path_V c code starts Gr t m Pt) Im) as Lt. destruct Ik as [Ik|[<-|[]]]; [specialize (IH k Ik); lia|exact Lt]. }
    assert (In n (be ++ n :: si)) by (apply in_or_app; right; left; reflexivity). specialize (G _ n Pa n H0). lia.
Qed.
Print Assumptions C67_exact_without_loops.

(** In a loop nothing is known of what was before.  [S]: instructions each of
    which has a predecessor among them. *)
Theorem C67_loops_forget c code starts fuel R (S : nat -> Prop) a : let P := problem code starts in
  IntraMonoSpec.graph c P -> IntraMonoSpec.entrySeeds c P -> IntraMonoModel.solve c P fuel = Some R ->
  (forall n, S n -> IntraMonoSpec.inV c P n /\ exists p, In p (IntraMonoModel.preds c n) /\ S p) -> ~ S a ->
  forall n, S n -> ~ In (VInst a) (IntraMonoModel.getResultsAt P n R).
Proof.
  intros P Gr Es So HS Na n Sn I. unfold IntraMonoModel.solve in So.
  destruct (IntraMonoModel.loop c P fuel (IntraMonoModel.initialize c P)) as [A|] eqn:L; [|discriminate]. injection So as <-.
  destruct (final c code starts Gr fuel A Es L) as (_ & _ & S3). destruct (HS n Sn) as [Vn _].
  assert (J : In (VInst a) (flow n (code n) (IntraMonoModel.get P n A))) by (unfold P; rewrite <- (S3 n Vn); exact I).
  apply in_flow in J. destruct J as [[_ [= ->]]|[J _]]; [contradiction|].
  refine (forgets c code starts Gr S (VInst a) Es HS _ fuel A L n Sn J). intros m Sm [= ->]. contradiction.
Qed.
Print Assumptions C67_loops_forget.

(** ** Executions *)
(** What is reported is without defined content, in every execution.  Missing:
    stores of anything but constant integers, stores through other pointers, and
    calls (refuted below). *)
Theorem C67_reported_is_uninitialised_partial c code args starts fuel R : let P := problem code starts in
  simple code -> IntraMonoSpec.graph c P -> IntraMonoSpec.entrySeeds c P -> IntraMonoModel.solve c P fuel = Some R ->
  forall tr n s s' x, run code args (IntraMonoModel.succs c) starts tr n s -> step code args n s s' ->
    In x (IntraMonoModel.getResultsAt P n R) -> uninitialised code s' x.
Proof.
  intros P Si Gr Es So tr n s s' x Ru St I.
  assert (Pa : path c (IntraMonoSpec.inV c P) tr n).
  { clear -Ru Es. destruct Es as [_ Es]. induction Ru as [n I|tr n s m s' R IH St I]; [|now constructor].
    destruct (Es n []) as [V N]; [cbn; apply in_map_iff; eauto|]. now constructor. }
  pose proof (C67_fresh_on_all_paths c code starts fuel R Gr Es So tr n x Pa I) as F.
  destruct (good_step code args Si tr n s s' (good_run code args Si _ _ tr n s Ru) St) as (_ & _ & G). exact (G x F).
Qed.
Print Assumptions C67_reported_is_uninitialised_partial.

(** ** Examples *)
Definition codeOf (l : list instr) (n : nat) : instr := nth n l IOther.
Definition straight (k : nat) : IntraMonoModel.cfg nat unit :=
  IntraMonoModel.mkCfg (fun _ => seq 0 k) (fun _ => seq 0 k) (fun n => if S n <? k then [S n] else [])
    (fun n => if n <? k then match n with 0 => [] | S p => [p] end else []) (fun _ _ => false).
Lemma straight_V k l n : IntraMonoSpec.inV (straight k) (problem (codeOf l) [0]) n <-> n < k.
Proof.
  unfold IntraMonoSpec.inV. cbn. split.
  - intros (f & _ & I). apply in_seq in I. lia.
  - intros L. exists tt. split; [auto|]. apply in_seq. lia.
Qed.
Lemma straight_graph k l : 1 <= k -> IntraMonoSpec.graph (straight k) (problem (codeOf l) [0]) /\ IntraMonoSpec.entrySeeds (straight k) (problem (codeOf l) [0]).
Proof.
  intros K. split.
  - constructor.
    + intros f n _ I. exact I.
    + intros n m Vn I. apply straight_V in Vn. apply straight_V. cbn [IntraMonoModel.succs straight] in I. destruct (Nat.ltb_spec (S n) k); [destruct I as [<-|[]]; lia|destruct I].
    + intros n m Vn I. apply straight_V in Vn. apply straight_V. cbn [IntraMonoModel.preds straight] in I. destruct (n <? k); [|destruct I]. destruct n; [destruct I|]. destruct I as [<-|[]]. lia.
    + intros n m Vn I. cbn [IntraMonoModel.succs IntraMonoModel.preds straight] in *. destruct (Nat.ltb_spec (S n) k); [|destruct I]. destruct I as [<-|[]].
      destruct (Nat.ltb_spec (S n) k); [left; reflexivity|lia].
    + intros s d p Vs I _ J. cbn [IntraMonoModel.succs IntraMonoModel.preds straight] in *. destruct (S s <? k); [|destruct I]. destruct I as [<-|[]]. destruct (S s <? k); [|destruct J].
      destruct J as [<-|[]]. reflexivity.
  - split; [cbn; repeat constructor; intros []|]. intros n x [[= <- <-]|[]]. split; [apply straight_V; lia|]. cbn. destruct k; reflexivity.
Qed.

(** int x, y; if (..) x = 1; else y = 2; the end *)
Definition branch : IntraMonoModel.cfg nat unit :=
  IntraMonoModel.mkCfg (fun _ => seq 0 7) (fun _ => seq 0 7)
    (fun n => match n with 0 => [1] | 1 => [2] | 2 => [3] | 3 => [4; 5] | 4 => [6] | 5 => [6] | _ => [] end)
    (fun n => match n with 1 => [0] | 2 => [1] | 3 => [2] | 4 => [3] | 5 => [3] | 6 => [4; 5] | _ => [] end)
    (fun s d => d =? 6).
Definition two := codeOf [IAlloca; IAlloca; IAlloca; IOther; IStore (VConst 1) true (VInst 0); IStore (VConst 2) true (VInst 1); IOther].
Lemma branch_graph l : IntraMonoSpec.graph branch (problem (codeOf l) [0]) /\ IntraMonoSpec.predsExact branch (problem (codeOf l) [0]) /\
  IntraMonoSpec.entrySeeds branch (problem (codeOf l) [0]) /\
  forall n m, IntraMonoSpec.inV branch (problem (codeOf l) [0]) n -> In m (IntraMonoModel.succs branch n) -> n < m.
Proof.
  assert (HV : forall n, IntraMonoSpec.inV branch (problem (codeOf l) [0]) n <-> n < 7).
  { intros n. unfold IntraMonoSpec.inV. split; [intros (f & _ & I); apply in_seq in I; lia|]. intros L. exists tt. split; [cbn; auto|]. apply in_seq. lia. }
  split; [constructor|split; [|split]].
  - intros f n _ I. exact I.
  - intros n m Vn I. apply HV in Vn. apply HV. do 7 (destruct n as [|n]; [cbn in I; lia|]). lia.
  - intros n m Vn I. apply HV in Vn. apply HV. do 7 (destruct n as [|n]; [cbn in I; lia|]). lia.
  - intros n m Vn I. apply HV in Vn. do 7 (destruct n as [|n]; [cbn in I; repeat destruct I as [<-|I]; cbn; auto; contradiction|]). lia.
  - intros s d p Vs I B J. apply HV in Vs. do 7 (destruct s as [|s]; [cbn in I; intuition (subst d; cbn in B, J; try discriminate B; intuition congruence)|]). lia.
  - intros n m Vm I. apply HV in Vm. do 7 (destruct m as [|m]; [cbn in I; repeat destruct I as [<-|I]; cbn; auto; contradiction|]). lia.
  - split; [cbn; repeat constructor; intros []|]. intros n x [[= <- <-]|[]]. split; [apply HV; lia|reflexivity].
  - intros n m Vn I. apply HV in Vn. do 7 (destruct n as [|n]; [cbn in I; lia|]). lia.
Qed.
Ltac aStep :=
  first [eapply step_alloca; reflexivity
        |eapply step_store; reflexivity
        |eapply (step_other _ _ _ _ None); reflexivity].
Ltac next H k :=
  match type of H with
  | run ?c ?a ?su ?st ?tr ?n ?s =>
      let E := fresh in
      eassert (E : step c a n s _) by aStep;
      let H' := fresh in
      pose proof (run_step c a su st tr n s k _ H E ltac:(cbn; auto)) as H'; clear H E; rename H' into H
  end.
Notation begin code args succs := (run_start code args succs [0] 0 (or_introl eq_refl)).

Example two_ex : simple two /\ (exists args tr s s', run two args (IntraMonoModel.succs branch) [0] tr 6 s /\ step two args 6 s s') /\
  exists R, IntraMonoModel.solve branch (problem two [0]) 60 = Some R /\
    IntraMonoModel.getResultsAt (problem two [0]) 6 R = [VInst 2] /\
    IntraMonoModel.getResultsAt (problem two [0]) 4 R = [VInst 2; VInst 1] /\
    IntraMonoModel.getResultsAt (problem two [0]) 3 R = [VInst 2; VInst 1; VInst 0].
Proof.
  split; [|split].
  - intros n. unfold two, codeOf. do 7 (destruct n as [|n]; [cbn; split; [discriminate|]; intros v int p E; first [discriminate E|injection E as <- <- <-; split; [reflexivity|split; [left; eauto|eexists; split; reflexivity]]]|]).
    cbn. destruct n; split; discriminate.
  - pose proof (begin two (fun _ => RVal true) (IntraMonoModel.succs branch)) as R. next R 1. next R 2. next R 3. next R 4. next R 6.
    exists (fun _ => RVal true). eexists. eexists. eexists. split; [exact R|aStep].
  - eexists. split; [vm_compute; reflexivity|]. repeat split.
Qed.

(** ** What fails *)
(** int x = y; float x = 1; int x = f(): all of them are reported afterwards. *)
Theorem C67_other_stores_refuted : exists code args, (forall n, code n <> ICall) /\
  (forall n v int p, code n = IStore v int p -> exists b, p = VInst b /\ code b = IAlloca) /\
  exists R tr s s', IntraMonoModel.solve (straight 5) (problem code [0]) 60 = Some R /\
    run code args (IntraMonoModel.succs (straight 5)) [0] tr 4 s /\ step code args 4 s s' /\
    forall a, a = 0 \/ a = 1 -> In (VInst a) (IntraMonoModel.getResultsAt (problem code [0]) 4 R) /\ ~ uninitialised code s' (VInst a).
Proof.
  pose (code := codeOf [IAlloca; IAlloca; IStore (VOther 0) true (VInst 0); IStore (VConst 1) false (VInst 1); IOther]).
  pose proof (begin code (fun _ => RVal true) (IntraMonoModel.succs (straight 5))) as R. next R 1. next R 2. next R 3. next R 4.
  exists code, (fun _ => RVal true). split; [|split].
  - intros n. unfold code, codeOf. do 5 (destruct n as [|n]; [discriminate|]). cbn. destruct n; discriminate.
  - intros n v int p. unfold code, codeOf. do 5 (destruct n as [|n]; [cbn; first [discriminate|intros [= <- <- <-]; eexists; split; reflexivity]|]). cbn. destruct n; discriminate.
  - eexists. eexists. eexists. eexists. split; [vm_compute; reflexivity|]. split; [exact R|]. split; [aStep|].
    intros a [->| ->]; (split; [cbn; auto|]); intros (n & b & [= <-] & _ & E & X); cbn in E; injection E as <-; cbn in X; discriminate.
Qed.
Print Assumptions C67_other_stores_refuted.

(** int x; p = &x; *p = 1: x is reported. *)
Theorem C67_alias_refuted : exists code args R tr s s', (forall n, code n <> ICall) /\
  IntraMonoModel.solve (straight 4) (problem code [0]) 60 = Some R /\
  run code args (IntraMonoModel.succs (straight 4)) [0] tr 3 s /\ step code args 3 s s' /\
  In (VInst 0) (IntraMonoModel.getResultsAt (problem code [0]) 3 R) /\ ~ uninitialised code s' (VInst 0).
Proof.
  pose (code := codeOf [IAlloca; IOther; IStore (VConst 1) true (VInst 1); IOther]).
  pose proof (begin code (fun _ => RVal true) (IntraMonoModel.succs (straight 4))) as R. next R 1.
  pose proof (run_step _ _ _ _ _ _ _ 2 _ R (step_other code (fun _ => RVal true) 1 _ (Some (RPtr 0)) eq_refl) ltac:(cbn; auto)) as R'.
  next R' 3. exists code, (fun _ => RVal true). eexists. eexists. eexists. eexists. split.
  - intros n. unfold code, codeOf. do 4 (destruct n as [|n]; [discriminate|]). cbn. destruct n; discriminate.
  - split; [vm_compute; reflexivity|]. split; [exact R'|]. split; [aStep|]. split; [cbn; auto|].
    intros (n & b & [= <-] & _ & E & X). cbn in E. injection E as <-. cbn in X. discriminate.
Qed.
Print Assumptions C67_alias_refuted.

(** int x; f(&x): x is reported. *)
Theorem C67_call_refuted : exists code args R tr s s',
  IntraMonoModel.solve (straight 2) (problem code [0]) 60 = Some R /\
  run code args (IntraMonoModel.succs (straight 2)) [0] tr 1 s /\ step code args 1 s s' /\
  In (VInst 0) (IntraMonoModel.getResultsAt (problem code [0]) 1 R) /\ ~ uninitialised code s' (VInst 0).
Proof.
  pose (code := codeOf [IAlloca; ICall]).
  pose proof (begin code (fun _ => RVal true) (IntraMonoModel.succs (straight 2))) as R. next R 1.
  exists code, (fun _ => RVal true). eexists. eexists. eexists. eexists.
  split; [vm_compute; reflexivity|]. split; [exact R|]. split; [apply (step_call _ _ _ _ None (fun _ => true)); reflexivity|]. split; [cbn; auto|].
  intros (n & b & [= <-] & _ & E & X). cbn in E. injection E as <-. cbn in X. discriminate.
Qed.
Print Assumptions C67_call_refuted.

(** Storing undef counts as initialisation: x is without a defined content in
    every execution, and not reported. *)
Theorem C67_undef_refuted : exists code R, simple code /\
  IntraMonoModel.solve (straight 2) (problem code [0]) 60 = Some R /\
  ~ In (VInst 0) (IntraMonoModel.getResultsAt (problem code [0]) 1 R) /\
  (exists args tr s s', run code args (IntraMonoModel.succs (straight 2)) [0] tr 1 s /\ step code args 1 s s') /\
  forall args tr s s', run code args (IntraMonoModel.succs (straight 2)) [0] tr 1 s -> step code args 1 s s' -> uninitialised code s' (VInst 0).
Proof.
  pose (code := codeOf [IAlloca; IStore VUndef true (VInst 0)]). exists code. eexists. split; [|split; [vm_compute; reflexivity|split; [cbn; auto|split]]].
  - intros n. unfold code, codeOf. destruct n as [|[|n]].
    + cbn. split; discriminate.
    + cbn. split; [discriminate|]. intros v int p [= <- <- <-]. split; [reflexivity|]. split; [auto|]. exists 0. auto.
    + cbn. destruct n; split; discriminate.
  - pose proof (begin code (fun _ => RVal true) (IntraMonoModel.succs (straight 2))) as R. next R 1.
    exists (fun _ => RVal true). eexists. eexists. eexists. split; [exact R|aStep].
  - intros args tr s s' R St. inversion St as [C|v int p a x C Ep Ev|x i' C|x C]; try discriminate C. subst s'.
    injection C as <- <- <-. cbn in Ev. injection Ev as <-. cbn in Ep. exists 0, a. cbn. unfold upd. rewrite Nat.eqb_refl. auto.
Qed.
Print Assumptions C67_undef_refuted.

(** int x; while (..) {}; the end: x is never set, on no path, and yet not
    reported. *)
Definition loopCfg : IntraMonoModel.cfg nat unit :=
  IntraMonoModel.mkCfg (fun _ => seq 0 4) (fun _ => seq 0 4)
    (fun n => match n with 0 => [1] | 1 => [2; 3] | 2 => [1] | _ => [] end)
    (fun n => match n with 1 => [0; 2] | 2 => [1] | 3 => [1] | _ => [] end)
    (fun s d => match s, d with 0, 1 | 1, 2 | 1, 3 | 2, 1 => true | _, _ => false end).
Theorem C67_loop_refuted : exists code R, simple code /\
  IntraMonoModel.solve loopCfg (problem code [0]) 60 = Some R /\
  IntraMonoModel.getResultsAt (problem code [0]) 0 R = [VInst 0] /\ IntraMonoModel.getResultsAt (problem code [0]) 3 R = [] /\
  (exists args tr s s', run code args (IntraMonoModel.succs loopCfg) [0] tr 3 s /\ step code args 3 s s') /\
  forall tr, path loopCfg (IntraMonoSpec.inV loopCfg (problem code [0])) tr 3 -> fresh code (tr ++ [3]) (VInst 0).
Proof.
  pose (code := codeOf [IAlloca]). exists code. eexists. split; [|split; [vm_compute; reflexivity|split; [reflexivity|split; [reflexivity|split]]]].
  - intros n. unfold code, codeOf. destruct n as [|[|n]]; cbn; split; discriminate.
  - pose proof (begin code (fun _ => RVal true) (IntraMonoModel.succs loopCfg)) as R. next R 1. next R 2. next R 1. next R 3.
    exists (fun _ => RVal true). eexists. eexists. eexists. split; [exact R|aStep].
  - assert (Ns : forall n, ~ sets code n (VInst 0)).
    { intros n [(z & E)|E]; unfold code, codeOf in E; destruct n as [|[|n]]; discriminate. }
    assert (G : forall tr n, path loopCfg (IntraMonoSpec.inV loopCfg (problem code [0])) tr n -> n = 0 \/ fresh code tr (VInst 0)).
    { induction 1 as [n (f & _ & Vn) Pn|tr n m Pa IH I].
      - apply in_seq in Vn. left. destruct n as [|[|[|[|n]]]]; [reflexivity|discriminate..|cbn in Vn; lia].
      - right. apply fresh_snoc. destruct IH as [->|F]; [left; split; reflexivity|right; split; [exact F|apply Ns]]. }
    intros tr Pa. destruct (G tr 3 Pa) as [E|F]; [discriminate|]. apply fresh_snoc. right. split; [exact F|apply Ns].
Qed.
Print Assumptions C67_loop_refuted.
Lemma loop_graph l : IntraMonoSpec.graph loopCfg (problem (codeOf l) [0]) /\ IntraMonoSpec.entrySeeds loopCfg (problem (codeOf l) [0]).
Proof.
  assert (HV : forall n, IntraMonoSpec.inV loopCfg (problem (codeOf l) [0]) n <-> n < 4).
  { intros n. unfold IntraMonoSpec.inV. split; [intros (f & _ & I); apply in_seq in I; lia|]. intros L. exists tt. split; [cbn; auto|]. apply in_seq. lia. }
  split; [constructor|].
  - intros f n _ I. exact I.
  - intros n m Vn I. apply HV in Vn. apply HV. do 4 (destruct n as [|n]; [cbn in I; lia|]). lia.
  - intros n m Vn I. apply HV in Vn. apply HV. do 4 (destruct n as [|n]; [cbn in I; lia|]). lia.
  - intros n m Vn I. apply HV in Vn. do 4 (destruct n as [|n]; [cbn in I; repeat destruct I as [<-|I]; cbn; auto; contradiction|]). lia.
  - intros s d p Vs I B J. apply HV in Vs. do 4 (destruct s as [|s]; [cbn in I; intuition (subst d; cbn in B, J; try discriminate B; intuition congruence)|]). lia.
  - split; [cbn; repeat constructor; intros []|]. intros n x [[= <- <-]|[]]. split; [apply HV; lia|reflexivity].
Qed.
Example loop_ex : forall n, n = 1 \/ n = 2 -> IntraMonoSpec.inV loopCfg (problem (codeOf [IAlloca]) [0]) n /\
  exists p, In p (IntraMonoModel.preds loopCfg n) /\ (p = 1 \/ p = 2).
Proof.
  intros n [->| ->]; (split; [exists tt; cbn; auto|]); [exists 2|exists 1]; cbn; auto.
Qed.
