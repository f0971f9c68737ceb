(** The flow functions of IFDSUninitializedVariables follow executions of simple
    programs. *)
From Coq Require Import List Bool ZArith Arith Lia.
From Verif Require Import Assoc TableModel IDESolverModel IDESpec IFDSModel IFDSSpec IFDSProofs
  IRProgramModel IRProgramSpec IRProgramProofs IRProgramSim UninitModel UninitSpec.
Import ListNotations.

Section P.
  Context {N F : Type} {EN : EqDec N} {EF : EqDec F}.
  Local Notation value := (value N F).
  Variable p : prog N F.
  Variable main : F.
  Hypothesis WF : prog_wf p.
  Hypothesis SI : simple p.
  Local Notation W := (uninitFlows p).

  Lemma zeroed_In (ff : value -> list value) d d' : In d' (ff d) -> In d' (zeroed ff d).
  Proof. unfold zeroed. destruct (isZero d); cbn; auto. Qed.
  Lemma zeroed_zero (ff : value -> list value) : In VZero (zeroed ff VZero).
  Proof. now left. Qed.
  Lemma var_cell v : var p v = isCell p v. Proof. reflexivity. Qed.

  Lemma firstUse_hit (d : value) ops : In d ops -> exists v, firstUse d ops = Some v /\ (v = d \/ (v = VUndef /\ In VUndef ops)).
  Proof.
    unfold firstUse. induction ops as [|o ops IH]; cbn; [intros []|].
    intros H. destruct (eqb o d) eqn:E1; cbn.
    - apply eqb_eq in E1. eauto.
    - destruct (isUndef o) eqn:E2.
      + destruct o; try discriminate. exists VUndef; auto 6.
      + destruct H as [->|H]; [rewrite eqb_refl in E1; discriminate|]. destruct (IH H) as (v & Hv & [X|[X Y]]); eauto 6.
  Qed.
  Lemma firstUse_undef (d : value) ops : In VUndef ops -> exists v, firstUse d ops = Some v /\ (v = d \/ v = VUndef).
  Proof.
    unfold firstUse. induction ops as [|o ops IH]; cbn; [intros []|].
    intros H. destruct (eqb o d) eqn:E1; cbn; [apply eqb_eq in E1; eauto|].
    destruct (isUndef o) eqn:E2; [destruct o; try discriminate; eauto|].
    destruct H as [->|H]; [discriminate|]. auto.
  Qed.

  Lemma normal_keep n d : match code p n with IStore _ q => d <> q | _ => True end -> In d (uninitNormal p n d).
  Proof.
    unfold uninitNormal. intros H. destruct (code p n); cbn;
      try (destruct (firstUse d (operands p n)); cbn; auto; fail).
    - destruct (isZero d && prim); cbn; auto.
    - destruct (eqb d v || (isZero d && isUndef v)); cbn; auto. destruct (eqb d q) eqn:E; cbn; auto. apply eqb_eq in E. contradiction.
  Qed.
  Lemma from_op n d : In d (flowsFrom p true n) -> In d (operands p n).
  Proof. unfold flowsFrom, operands. destruct (code p n); auto; contradiction. Qed.
  Lemma normal_gen n d x : In x (flowsFrom p true n) -> d = x \/ x = VUndef -> In (VInst n) (uninitNormal p n d).
  Proof.
    intros H Hd. pose proof (from_op _ _ H) as Ho.
    assert (X : exists v, firstUse d (operands p n) = Some v).
    { destruct Hd as [->| ->]; [destruct (firstUse_hit _ _ Ho) as (v & ? & _)|destruct (firstUse_undef d _ Ho) as (v & ? & _)]; eauto. }
    destruct X as [v Hv]. unfold uninitNormal, flowsFrom in *.
    destruct (code p n); try destruct H; rewrite Hv; cbn; auto.
  Qed.

  Lemma in_pairs {A B} (l : list A) (l' : list B) i a b : nth_error l i = Some a -> nth_error l' i = Some b -> In (a, b) (List.combine l l').
  Proof.
    revert l' i. induction l as [|x l IH]; intros [|y l'] [|i] H1 H2; cbn in *; try discriminate.
    - left. congruence.
    - right. eauto.
  Qed.
  Lemma nth_params f i : i < nparams p f -> nth_error (params p f) i = Some (VArg f i).
  Proof.
    intros H. unfold params. rewrite nth_error_map. replace (nth_error (seq 0 (nparams p f)) i) with (Some i); [reflexivity|].
    symmetry. rewrite (nth_error_nth' _ 0); [|now rewrite seq_length]. now rewrite seq_nth.
  Qed.

  Lemma uninit_flowsOk : flowsOk p true true true extInit main (fun _ => false) W (uninitSeeds p main).
  Proof.
    split.
    - reflexivity.
    - intros sp Hs. split; [|discriminate]. apply v_seed with (ds := [VZero]); [|now left].
      unfold uninitSeeds. rewrite Hs. now left.
    - intros n n' _. apply zeroed_zero.
    - intros n n' d _ _ Hk. left. apply zeroed_In. apply normal_keep. unfold killed in Hk. destruct (code p n); auto.
    - intros n n' d Hd _. apply zeroed_In. eapply normal_gen; eauto.
    - intros n n' Hd _. apply zeroed_In. eapply normal_gen; eauto.
    - intros n n' b Hn _. pose proof (SI n) as S. rewrite Hn in S. subst b.
      apply zeroed_In. unfold uninitNormal. rewrite Hn. cbn. auto.
    - intros n. pose proof (SI n) as S. destruct (code p n); auto.
    - intros n n' v q Hn _ _ _. apply zeroed_In. unfold uninitNormal. rewrite Hn, eqb_refl. cbn. auto.
    - intros n n' q Hn _ _. apply zeroed_In. unfold uninitNormal. rewrite Hn. cbn.
      destruct (eqb VZero VUndef); cbn; auto.
    - intros c f i a Hf Hb Hi. pose proof (SI c) as S. unfold calleesAt in Hf. unfold argsAt in Hi.
      destruct (code p c) as [| | | | | | | | |direct fs args|]; try destruct Hf as [].
      + destruct S as (S & _). destruct (S f Hf Hb) as [_ S']. destruct (S' i a Hi) as [X Y]. split; [exact X|congruence].
    - intros c f i j a Hf Hb Ha Hi Hj. pose proof (SI c) as S. unfold argsAt in *.
      destruct (code p c) as [| | | | | | | | |direct fs args|]; try (destruct i; discriminate).
      destruct S as (_ & _ & S & _). eapply S; eauto.
    - reflexivity.
    - intros c f _ _. apply zeroed_zero.
    - intros c f i a Hf Hb Hi Hr Hl. apply zeroed_In. unfold uninitCall.
      destruct (isZero a) eqn:Z; [destruct a; discriminate|].
      apply in_flat_map. exists (a, VArg f i). split; [eapply in_pairs; eauto using nth_params|].
      cbn [fst snd]. rewrite eqb_refl. now left.
    - intros c r _. apply zeroed_zero.
    - intros c r d Hc Hr Hd. apply zeroed_In. unfold uninitCtr.
      destruct (pointer p d && existsb (eqb d) (argsAt p c)) eqn:E; [|now left].
      exfalso. apply andb_true_iff in E as [E1 E2]. apply existsb_exists in E2 as (x & Hx & E2). apply eqb_eq in E2. subst x.
      pose proof (SI c) as S. unfold isCall in Hc. unfold argsAt in *. destruct (code p c) as [| | | | | | | | |direct fs args|]; try discriminate.
      destruct S as (_ & S & _). specialize (S d Hx). destruct d; try discriminate; cbn in E1; apply Hd; auto; rewrite <- var_cell; congruence.
    - intros c f e r v _ _ _ Hv _. apply zeroed_In. unfold uninitRet. rewrite Hv, eqb_refl. now left.
    - intros e He. pose proof (SI e) as S. unfold retVal in He. destruct (code p e); try discriminate. congruence.
    - intros c f e r i a Hf Hb _ Hi Ha Hl. apply zeroed_In. unfold uninitRet. apply in_or_app. right.
      pose proof (SI c) as S. unfold argsAt, calleesAt in *. destruct (code p c) as [| | | | | | | | |direct fs args|]; try destruct Hf as [].
      + destruct S as (S & _ & _ & S'). destruct (S f Hf Hb) as [_ Sf]. destruct (Sf i a Hi) as [X _].
        destruct S' as (-> & g & ->); [exists a; eauto using nth_error_In|]. destruct Hf as [->|[]].
        apply in_flat_map. exists (VArg f i, a). split; [eapply in_pairs; eauto using nth_params|].
        cbn [fst snd]. rewrite eqb_refl. rewrite <- X, var_cell, Ha. now left.
    - intros c f Hf Hb. pose proof (SI c) as S. unfold argsAt, calleesAt in *. destruct (code p c); try destruct Hf as [].
      + destruct S as (S & _). symmetry. now apply (S f).
    - intros c b fs args f r E cs M x M' Hc Hf Hb Hcs [Hx HM] _ _. split; [congruence|].
      intros l Hl. destruct (HM l) as [H1 H2]. right. split.
      + rewrite H2 in Hl; auto. intros m Hi. rewrite H1 in Hl; eauto. discriminate.
      + intros a m Ha Hca He. rewrite H1 in Hl; [discriminate|].
        assert (Hv : eval true E a = Some (PPtr l, m)) by (rewrite eval_reg; eauto using cell_reg).
        clear - Hcs Ha Hv. induction Hcs as [|v c vs cs Hv' _ IH]; [destruct Ha|]. destruct Ha as [->|Ha].
        * exists m. left. congruence.
        * destruct (IH Ha) as [m' ?]. exists m'. now right.
  Qed.

  Lemma uninit_starts n ds : In (n, ds) (uninitSeeds p main) -> isStart p n = true.
  Proof.
    unfold uninitSeeds. destruct (entry p main) as [sp|] eqn:E; [|intros []]. intros [[= <- _]|[]].
    apply ir_isStart. now rewrite (pw_entry p WF _ _ E).
  Qed.

  Lemma uninit_reported st T n E K M k v :
    solved (irICFG p) (uninitProblem p) false (bottomSeeds (uninitSeeds p main)) st T ->
    runs p extInit main (n, E, K, M, k) -> succs p n <> [] -> usesUninit p n E M v ->
    In v (undefUses p T n) \/ (In VUndef (operands p n) /\ In VUndef (undefUses p T n)).
  Proof.
    intros Hs He Hsucc [Hop Hu].
    assert (Row : forall d w, valid (irICFG p) W (uninitSeeds p main) (stkOf K) n d -> recorded p n d = Some w -> In w (undefUses p T n)).
    { intros d w V R. unfold undefUses. replace (isCall p n) with false by (unfold isCall; destruct (code p n); auto; destruct Hu).
      destruct (succs p n); [congruence|]. apply in_flat_map. exists d. split; [|rewrite R; now left].
      eapply ir_covers; eauto using uninit_starts. }
    assert (Rec : forall d, recorded p n d = firstUse d (operands p n)).
    { intros d. unfold recorded. destruct (code p n); auto; destruct Hu. }
    assert (X : v = VUndef \/ (isReg v = true /\ valid (irICFG p) W (uninitSeeds p main) (stkOf K) n v)).
    { assert (Y : v = VUndef \/ (isReg v = true /\
         ((exists c, E v = Some c /\ marked c = true) \/ (isCell p v = true /\ exists l m, E v = Some (PPtr l, m) /\ marked (M l) = true)))).
      { assert (Z : forall pl, eval true E v = Some (pl, true) -> v = VUndef \/ (isReg v = true /\
            ((exists c, E v = Some c /\ marked c = true) \/ (isCell p v = true /\ exists l m, E v = Some (PPtr l, m) /\ marked (M l) = true)))).
        { intros pl Hv. destruct (eval_marked true E v _ Hv eq_refl) as [[R1 R2]|[-> _]]; eauto 10. }
        pose proof (SI n) as S. unfold operands in Hop.
        destruct (code p n); try (destruct Hu; fail); try (destruct Hu as [pl Hu]; eauto; fail).
        destruct Hu as [[pl Hu]|(l & m & Hl & Hm)]; [eauto|]. destruct Hop as [<-|[]].
        destruct S as [S|[g ->]].
        - right. rewrite var_cell in S. split; [now apply (cell_reg p)|]. right. split; auto.
          rewrite eval_reg in Hl by now apply (cell_reg p). eauto.
        - cbn in Hl. inversion Hl; subst.
          destruct (exec_inv p true true true extInit main (fun _ => false) W (uninitSeeds p main) WF uninit_flowsOk ltac:(discriminate) _ He) as (_ & _ & _ & Q).
          rewrite Q in Hm. discriminate. }
      destruct Y as [->|[R Y]]; auto. right. split; auto.
      eapply marked_valid; eauto using uninit_flowsOk. discriminate. }
    destruct X as [->|[_ V]].
    - left. assert (V : valid (irICFG p) W (uninitSeeds p main) (stkOf K) n VZero).
      { eapply zero_valid; eauto using uninit_flowsOk. discriminate. }
      destruct (firstUse_undef VZero _ Hop) as (w & Hw & Hw').
      assert (w = VUndef); [|subst; eapply Row; eauto; now rewrite Rec].
      destruct Hw' as [->|]; auto. unfold firstUse in Hw. apply find_some in Hw as [H0 _]. now apply (pw_nozero p WF) in H0.
    - destruct (firstUse_hit _ _ Hop) as (w & Hw & [->|[-> Hi]]).
      + left. eapply Row; eauto. now rewrite Rec.
      + right. split; auto. eapply Row; eauto. now rewrite Rec.
  Qed.
End P.

(** *** termination *)
Section T.
  Context {N F : Type} {EN : EqDec N} {EF : EqDec F}.
  Local Notation value := (value N F).
  Variable p : prog N F.
  Variable main : F.
  Variable funs : list F.
  Hypothesis FU : forall f, In f funs.
  Hypothesis NO : forall n, In n (nodes p).

  Definition irFacts : list value :=
    VZero :: flat_map (fun n => VInst n :: operands p n) (nodes p) ++ flat_map (fun f => params p f ++ valists p f) funs.
  Lemma fact_zero : In VZero irFacts. Proof. now left. Qed.
  Lemma fact_inst n : In (VInst n) irFacts.
  Proof. right. apply in_or_app. left. apply in_flat_map. exists n. split; auto. now left. Qed.
  Lemma fact_op n d : In d (operands p n) -> In d irFacts.
  Proof. intros H. right. apply in_or_app. left. apply in_flat_map. exists n. split; auto. now right. Qed.
  Lemma fact_arg n d : In d (argsAt p n) -> In d irFacts.
  Proof. intros H. apply (fact_op n). unfold argsAt, operands in *. destruct (code p n); auto; destruct H. Qed.
  Lemma fact_par f d : In d (params p f) -> In d irFacts.
  Proof. intros H. right. apply in_or_app. right. apply in_flat_map. exists f. split; auto. apply in_or_app; auto. Qed.
  Lemma zeroed_inv (ff : value -> list value) d d' : In d' (zeroed ff d) -> d' = VZero \/ In d' (ff d).
  Proof. unfold zeroed. destruct (isZero d); cbn; intuition. Qed.

  Lemma uninit_facts : facts_closed (uninitProblem p) (bottomSeeds (uninitSeeds p main)) irFacts.
  Proof.
    split; cbn [zeroValue normalFF callFF retFF ctrFF sumFF uninitProblem ifdsProblem uninitFlows irFlows f_normal f_call f_ret f_ctr f_sum f_zero].
    - apply fact_zero.
    - intros n facts d v H H'. unfold uninitSeeds, bottomSeeds in H. destruct (entry p main); [|destruct H]. destruct H as [[= _ <-]|[]].
      destruct H' as [[= <- _]|[]]. apply fact_zero.
    - intros n n' d d' Hd H. apply zeroed_inv in H as [->|H]; [apply fact_zero|].
      pose proof (fact_inst n) as FI. pose proof (fact_op n) as FO.
      assert (X : d' = d \/ d' = VInst n \/ In d' (operands p n)).
      { unfold uninitNormal in H. unfold operands. destruct (code p n); cbn in H |- *;
          repeat match type of H with context [if ?c then _ else _] => destruct c; cbn in H
                 | context [match ?c with Some _ => _ | None => _ end] => destruct c; cbn in H end; intuition. }
      destruct X as [->|[->|X]]; auto.
    - intros n f d d' Hd H. apply zeroed_inv in H as [->|H]; [apply fact_zero|]. unfold uninitCall in H.
      destruct (isZero d); [destruct H as [<-|[]]; auto|]. apply in_flat_map in H as ([a b] & H1 & H2). cbn [fst snd] in H2.
      destruct (eqb d a); [|destruct H2]. destruct H2 as [<-|[]]. apply in_combine_r in H1. now apply (fact_par f).
    - intros c f e r d d' Hd H. apply zeroed_inv in H as [->|H]; [apply fact_zero|]. unfold uninitRet in H.
      apply in_app_iff in H as [H|H].
      + destruct (retVal p e) as [v|]; [|destruct H]. destruct (eqb v d); [|destruct H]. destruct H as [<-|[]]. apply fact_inst.
      + destruct (code p c) as [| | | | | | | | |[|] [|g fs] args|] eqn:Hc; try destruct H as [].
        apply in_flat_map in H as ([a b] & H1 & H2). cbn [fst snd] in H2.
        destruct (eqb a d && isPtr p a); [|destruct H2]. destruct H2 as [<-|[]]. apply in_combine_r in H1.
        apply (fact_op c). unfold operands. now rewrite Hc.
    - intros c r d d' Hd H. apply zeroed_inv in H as [->|H]; [apply fact_zero|]. unfold uninitCtr in H.
      destruct (pointer p d && _); [destruct H|]. destruct H as [<-|[]]. auto.
    - discriminate.
  Qed.
End T.
