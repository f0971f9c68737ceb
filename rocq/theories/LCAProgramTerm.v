(** The linear constant analysis terminates; its BinOps are linear. *)
From Coq Require Import List Bool ZArith Arith Lia.
From Verif Require Import Assoc TableModel LatticeModel LCAModel
  IDESolverModel IDESpec EdgeFunctionModel EdgeFunctionProofs LLVMFlowFunctionsModel
  LCAProgramModel LCAProgramSpec LCAProgramProofs.
Import ListNotations.

Section T.
  Context {N F : Type} {EN : EqDec N} {EF : EqDec F}.
  Local Notation value := (value N F).
  Local Notation var := (var N F).
  Variable soo : bool.
  Variable p : prog N F.
  Local Notation lcl := (@lclient N F EN EF).
  Local Notation binop := (@binop N F EN EF).
  Local Notation P := (lcaProblem soo p).

  Definition erank (f : @ledge N F EN EF) : nat :=
    match proj1_sig f with ETop => 3 | EConst LTop => 2 | EBot => 0 | _ => 1 end.
  Definition vrank (l : lval) : nat := match l with LTop => 2 | LVal _ => 1 | LBot => 0 end.

  Lemma eqBin_refl (b : binop) : eqBin b b = true.
  Proof. unfold eqBin, binOpEqb. destruct (bOp (proj1_sig b)); now rewrite !eqb_refl. Qed.
  Lemma efEqb_self (f : ef lval binop) : efEqb lop lcl f f = true.
  Proof. apply (efEqb_refl lop lcl lop_ok). exact eqBin_refl. Qed.

  Lemma lca_height : finite_height P erank vrank.
  Proof.
    split.
    - intros [f Hf] [g Hg]. cbn [combine IDESolverModel.efEqb lcaProblem joinE proj1_sig mk].
      unfold erank. cbn [proj1_sig mk joinE IDESolverModel.combine lcaProblem].
      assert (SE : forall a : ef lval binop, efEqb lop lcl a a = false -> False) by (intros a; rewrite efEqb_self; discriminate).
      assert (DJ : forall a b, (a : ef lval binop) <> ETop -> (forall v, a <> EConst v) -> a <> EBot ->
                 match defaultJoinOrNull lop lclient0 anyLt 0 a b with Some h => h | None => EBot end = EBot \/
                 match defaultJoinOrNull lop lclient0 anyLt 0 a b with Some h => h | None => EBot end = a).
      { intros a b _ _ _. unfold defaultJoinOrNull. destruct b; auto; destruct (efEqb lop lclient0 _ a); auto. }
      assert (JO : forall a b, occurs a = true -> (a : ef lval binop) <> EId -> a <> ETop -> (forall v, a <> EConst v) -> a <> EBot ->
                 joinOpaque lop lcl anyLt a b = EBot \/ joinOpaque lop lcl anyLt a b = a).
      { intros a b Ha N0 N1 N2 N3. destruct a; try discriminate Ha; try (now elim N0); try (now elim N1); try (now elim N3); [now elim (N2 v)| |];
          cbn [joinOpaque cjoin ujoin lclient]; apply DJ; discriminate. }
      assert (NC : forall a v, occurs a = true -> (forall w, a <> EConst w) -> a <> ETop -> a <> EBot -> a <> EId ->
                 joinOpaque lop lcl anyLt a (EConst v : ef lval binop) = EBot).
      { intros a v Ha N2 N1 N3 N0. destruct a; try discriminate Ha; try (now elim N0); try (now elim N1); try (now elim N3); [now elim (N2 v0)| |]; reflexivity. }
      assert (NI : forall a, occurs a = true -> (forall w, a <> EConst w) -> a <> ETop -> a <> EBot -> a <> EId ->
                 joinOpaque lop lcl anyLt a (EId : ef lval binop) = EBot).
      { intros a Ha N2 N1 N3 N0. destruct a; try discriminate Ha; try (now elim N0); try (now elim N1); try (now elim N3); [now elim (N2 v)| |]; reflexivity. }
      destruct f as [| | |v|n s vec|n f1 f2|f1 f2|u]; try discriminate Hf; cbn [join].
      + destruct g as [| | |w|n s vec|n g1 g2|g1 g2|u]; try discriminate Hg; cbn; try discriminate; auto; rewrite ?NI; auto; try discriminate; intros; cbn; lia.
      + discriminate.
      + destruct g as [| | |[|w|]|n s vec|n g1 g2|g1 g2|u]; try discriminate Hg; cbn; intros; try discriminate; lia.
      + destruct g as [| | |w|n s vec|n g1 g2|g1 g2|u]; try discriminate Hg; unfold joinConst; cbn [defaultJoinOrNull].
        * cbn. intros _. destruct v; lia.
        * cbn. intros _. destruct v; lia.
        * intros X. now apply SE in X.
        * destruct (efEqb lop lcl (EConst w) (EConst v)) eqn:Q; [intros X; now apply SE in X|]. cbn [isConstant negb apply].
          destruct v as [|v|], w as [|w|]; cbn in Q |- *; try discriminate Q; destruct soo; cbn; try discriminate; intros X; try lia;
            unfold ldJoin, ldEqb in *; cbn in *; rewrite ?Z.eqb_refl in *; cbn in *; try discriminate; try lia.
          all: try (rewrite (Z.eqb_sym v w), Q in *; cbn in *; try discriminate; lia).
          all: repeat match goal with |- context [Z.eqb ?a ?b] => destruct (Z.eqb a b) eqn:?; cbn in * end; try discriminate; lia.
        * cbn [efEqb isConstant negb]. rewrite NC; auto; try discriminate. cbn. destruct v; lia.
        * cbn [efEqb isConstant negb uconst lclient]. rewrite NC; auto; try discriminate. cbn. destruct v; lia.
      + destruct (JO (EComp f1 f2) g Hf) as [->| ->]; try discriminate; [cbn; lia|]. intros X. now apply SE in X.
      + destruct (JO (EUser u) g Hf) as [->| ->]; try discriminate; [cbn; lia|]. intros X. now apply SE in X.
    - intros [f Hf]. unfold erank. cbn. destruct f as [| | |[| |]| | | |]; lia.
    - intros [f Hf]. unfold erank. cbn. destruct f; cbn; auto; discriminate.
    - intros [|x|] [|y|]; cbn; try discriminate; try lia; unfold ldJoin, ldEqb; cbn; rewrite ?Z.eqb_refl; cbn; try discriminate; try lia.
      destruct (Z.eqb_spec x y) as [->|D]; cbn; [rewrite Z.eqb_refl; discriminate|lia].
  Qed.

  (** *** the facts of a program *)
  Variable funs : list F.
  Hypothesis FU : forall f, In f funs.
  Hypothesis NO : forall n, In n (nodes p).

  Definition operands (n : N) : list value :=
    match code p n with IStore _ q b _ => [q; b] | ICall _ args => args | IBinIntrin _ _ l r _ => [l; r] | _ => [] end.
  Definition factsOf : list value :=
    Zero :: map (fun gz => Val (VGlob (fst gz))) (inits p) ++ flat_map (fun n => Val (VInst n) :: operands n) (nodes p) ++
    flat_map (fun f => cParams (sig p f) ++ cVaLists (sig p f)) funs.
  Lemma fact_inst n : In (Val (VInst n)) factsOf.
  Proof. right. apply in_or_app. right. apply in_or_app. left. apply in_flat_map. exists n. split; auto. now left. Qed.
  Lemma fact_op n d : In d (operands n) -> In d factsOf.
  Proof. intros H. right. apply in_or_app. right. apply in_or_app. left. apply in_flat_map. exists n. split; auto. now right. Qed.
  Lemma fact_par f d : In d (cParams (sig p f) ++ cVaLists (sig p f)) -> In d factsOf.
  Proof. intros H. right. apply in_or_app. right. apply in_or_app. right. apply in_flat_map. exists f. auto. Qed.
  Lemma gen_in g pr (d d' : value) : In d' (generateIf g pr d) -> d' = d \/ d' = g.
  Proof. unfold generateIf. destruct (pr d); cbn; intuition. Qed.
  Lemma skipn_In {A} (x : A) k : forall l, In x (skipn k l) -> In x l.
  Proof. induction k as [|k IH]; intros [|a l] H; cbn in *; auto. Qed.
  Lemma fact_arg c d : In d (argsAt p c) -> In d factsOf.
  Proof. intros H. apply (fact_op c). unfold argsAt in H. unfold operands. destruct (code p c); auto; destruct H. Qed.

  Lemma lca_facts main : facts_closed P (lcaSeeds p main) factsOf.
  Proof.
    split; cbn [zeroValue normalFF callFF retFF ctrFF sumFF lcaProblem].
    - now left.
    - intros n facts d v H H'. unfold lcaSeeds in H. destruct (entry p main); [|destruct H]. destruct H as [[= _ <-]|[]].
      destruct H' as [[= <- _]|H']; [now left|]. apply in_map_iff in H' as (gz & [= <- _] & I'). right. apply in_or_app. left.
      apply in_map_iff. eauto.
    - intros n n' d d' Hd H. unfold normalFlow in H. pose proof (fact_inst n) as FI. pose proof (fact_op n) as OP. unfold operands in OP.
      destruct (code p n) as [i|v q b i|q i|q i|w s o l r|w o l r f|a i bi it|fs ar|rv|];
        try (destruct i); try (destruct bi, it);
        try (apply gen_in in H as [->| ->]; auto; fail); try (destruct H as [<-|[]]; auto; fail).
      all: assert (X : d' = d \/ d' = q \/ d' = b) by
        (unfold strongUpdateIf, strongUpdate in H; destruct (isConstInt v); cbn in H;
         repeat match type of H with context [if ?c then _ else _] => destruct c; cbn in H end; intuition);
        destruct X as [->|[->| ->]]; auto; apply OP; cbn; auto.
    - intros n f d d' Hd H. unfold callFlow in H. destruct (decl p f) eqn:D; [destruct H as [<-|[]]; auto|].
      unfold toCallee in H. cbn [cDecl sig] in H. rewrite D in H. destruct (negb (arityOk _ _)); [destruct H|].
      apply in_app_iff in H as [H|H]; [destruct (_ || _); [destruct H as [<-|[]]; auto|destruct H]|].
      apply in_app_iff in H as [H|H].
      + apply in_flat_map in H as ([a b] & H1 & H2). cbn [fst snd] in H2. destruct (_ || _) in H2; [|destruct H2].
        destruct H2 as [<-|[]]. apply in_combine_l in H1. apply skipn_In in H1. apply (fact_par f). apply in_or_app. now left.
      + destruct (existsb _ _); [|destruct H]. rewrite map_id in H. apply (fact_par f). apply in_or_app. now right.
    - intros c f e r d d' Hd H. unfold retFlow, toCaller in H. destruct (negb (arityOk _ _)); [destruct H|].
      apply in_app_iff in H as [H|H]; [destruct (true && isZero d); [|destruct (true && isConst d)]; try (destruct H as [<-|[]]; auto); destruct H|].
      apply in_app_iff in H as [H|H].
      + apply in_flat_map in H as ([a b] & H1 & H2). cbn [fst snd] in H2. destruct (_ && _) in H2; [|destruct H2].
        destruct H2 as [<-|[]]. apply in_combine_r in H1. now apply (fact_arg c).
      + apply in_app_iff in H as [H|H].
        * destruct (existsb _ _); [|destruct H]. rewrite map_id in H. apply skipn_In in H. now apply (fact_arg c).
        * destruct (retVal p e) as [v|]; [|destruct H]. destruct (_ || _) in H; [|destruct H]. destruct H as [<-|[]]. apply fact_inst.
    - intros c r d d' Hd H. unfold ctrFlow in H. destruct (forallb _ _); [destruct H as [<-|[]]; auto|].
      unfold alongside in H. destruct (isZero d); [destruct H as [<-|[]]; auto|]. destruct (isConst d); [destruct H|].
      destruct (find _ _) as [a|] eqn:X; [|destruct H as [<-|[]]; auto]. destruct (negb _); [|destruct H]. destruct H as [<-|[]].
      apply find_some in X as [X _]. now apply (fact_arg c).
    - intros c f sf d d' H Hd H'. unfold sumFlow in H. destruct (code p c); try discriminate. injection H as <-.
      apply gen_in in H' as [->| ->]; auto. apply fact_inst.
  Qed.
End T.

(** the BinOps are linear *)
Lemma flow_linear {N F : Type} {EN : EqDec N} {EF : EqDec F} op (l r d : value N F) : l <> Zero -> r <> Zero -> (forall w v, d <> Const w v) ->
  flowsIn l r d = true -> nonlinear l r d = false -> linear (mkBinOp op l r d) = true.
Proof.
  unfold flowsIn, nonlinear, linear. cbn [bL bR bCur]. intros Hl Hr Hd HF HN.
  apply orb_false_iff in HN as [N1 N2]. 
  assert (NZ : forall x : value N F, x <> Zero -> negb (eqb x Zero) = true) by (intros x X; apply negb_true_iff; now apply Assoc.eqb_false).
  apply orb_true_iff in HF as [HF|HF]; [apply orb_true_iff in HF as [HF|HF]; apply eqb_eq in HF; subst d|].
  - rewrite eqb_refl in N1. apply negb_false_iff in N1. destruct r as [|w v|]; try discriminate. destruct l as [|w' v'|x]; [now elim Hl|now elim (Hd w' v')|].
    cbn [sext]. rewrite (eqb_refl (Val x)). apply NZ. discriminate.
  - rewrite eqb_refl in N2. apply negb_false_iff in N2. destruct l as [|w v|]; try discriminate. destruct r as [|w' v'|x]; [now elim Hr|now elim (Hd w' v')|].
    cbn [sext]. rewrite (eqb_refl (Val x)). apply NZ. discriminate.
  - apply andb_true_iff in HF as [HF Hr']. apply andb_true_iff in HF as [HF Hl'].
    destruct d; try discriminate. destruct l; try discriminate. destruct r; try discriminate. cbn [sext]. apply eqb_refl.
Qed.
