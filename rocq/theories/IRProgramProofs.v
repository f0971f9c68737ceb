(** The ICFG of IRProgramModel.v is consistent; IFDS results cover valid paths. *)
From Coq Require Import List Bool Arith.
From Verif Require Import Assoc TableModel IDESolverModel IDESpec IDESound IDEProperties IFDSModel IFDSSpec IFDSProofs IRProgramModel IRProgramSpec.
Import ListNotations.

Section P.
  Context {N F : Type} {EN : EqDec N} {EF : EqDec F}.
  Local Notation value := (value N F).
  Variable p : prog N F.
  Hypothesis WF : prog_wf p.
  Local Notation G := (irICFG p).

  Lemma ir_isStart n : isStart p n = true <-> entry p (fnOf p n) = Some n.
  Proof.
    unfold isStart. destruct (entry p (fnOf p n)) as [sp|]; [|split; discriminate].
    rewrite eqb_true. split; congruence.
  Qed.
  Lemma ir_icfg_wf : icfg_wf G.
  Proof.
    assert (NS : forall n n', In n' (succs p n) -> isStart p n' = false).
    { intros n n' H. apply not_true_is_false. intros E. apply ir_isStart in E. now apply (pw_noentry p WF _ _ _ H) in E. }
    split; cbn; auto.
    - apply (pw_succ p WF).
    - apply (pw_succ p WF).
    - intros f sp H. destruct (entry p f) as [s|] eqn:E; [|destruct H]. destruct H as [->|[]]. now apply (pw_entry p WF).
    - intros n. rewrite ir_isStart. destruct (entry p (fnOf p n)) as [s|]; cbn; [|intuition discriminate].
      split; [intros [= ->]; now left|intros [->|[]]; auto].
    - intros c. rewrite filter_In, andb_true_iff, eqb_true. pose proof (pw_nodes p WF c). intuition.
    - intros f c H. apply filter_In in H as [_ H]. apply andb_true_iff in H as [_ H]. now apply eqb_eq in H.
    - intros n. rewrite filter_In, andb_true_iff, !negb_true_iff. pose proof (pw_nodes p WF n). intuition.
  Qed.
  Lemma ir_single_start : single_start G.
  Proof.
    intros f sp sp' H H'. cbn in *. destruct (entry p f); [|destruct H]. destruct H as [<-|[]]. destruct H' as [<-|[]]. reflexivity.
  Qed.

  Variable W : flows N F value.
  Variable S0 : list (N * list value).
  Hypothesis ST : forall n ds, In (n, ds) S0 -> isStart p n = true.

  Lemma valid_vpath stk n d : valid G W S0 stk n d ->
    vpath G (ifdsProblem W) (@anyval bdom) (holds_initially (ifdsProblem W) (bottomSeeds S0)) (stk, n, d, BOTTOM).
  Proof.
    induction 1 as [n ds d Hi Hd|n ds Hi|stk n d n' d' V IH H1 H2 H3|stk c d r d' V IH H1 H2 H3|stk c d callee sf r d' V IH H1 H2 H3 H4 H5
                   |stk c d callee sp d' V IH H1 H2 H3 H4 H5|stk c callee e d r d' V IH H1 H2 H3 H4].
    - apply vp_init; [|exact Logic.I]. exists (map (fun d => (d, BOTTOM)) ds). split.
      + apply in_map_iff. exists (n, ds). auto.
      + left. apply in_map_iff. eauto.
    - apply vp_init; [|exact Logic.I]. exists (map (fun d => (d, BOTTOM)) ds). split.
      + apply in_map_iff. exists (n, ds). auto.
      + destruct (in_dec eq_dec (f_zero W) ds) as [H|H]; [left; apply in_map_iff; eauto|].
        right. repeat split; auto. intros v' X. apply in_map_iff in X as (d & [= X _] & Y). cbn in X. subst d. contradiction.
    - eapply vp_step; [exact IH| |exact Logic.I]. exact (es_normal G (ifdsProblem W) _ _ _ BOTTOM _ _ H1 H2 H3).
    - eapply vp_step; [exact IH| |exact Logic.I]. exact (es_ctr G (ifdsProblem W) _ _ _ BOTTOM _ _ H1 H2 H3).
    - eapply vp_step; [exact IH| |exact Logic.I]. exact (es_summary G (ifdsProblem W) _ _ _ BOTTOM _ _ _ _ H1 H2 H3 H4 H5).
    - eapply vp_step; [exact IH| |exact Logic.I]. exact (es_call G (ifdsProblem W) _ _ _ BOTTOM _ _ _ H1 H2 H3 H4 H5).
    - eapply vp_step; [exact IH| |exact Logic.I]. exact (es_ret G (ifdsProblem W) _ _ _ _ _ BOTTOM _ _ H1 H2 H3 H4).
  Qed.

  Lemma ir_covers follow st T stk n d : solved G (ifdsProblem W) follow (bottomSeeds S0) st T ->
    valid G W S0 stk n d -> In d (ifdsResultsAt T n).
  Proof.
    intros Hs V. unfold ifdsResultsAt. apply t_row_keys. intros E.
    pose proof (C01_results_cover_every_valid_path_no_top _ _ _ _ _ _ _ _ G (ifdsProblem W) follow ir_icfg_wf (ifds_lattice W)
      (ef_sound_weaken _ (ifds_sound W)) (ifds_nontop G W)) as C.
    assert (X : lle (ifdsProblem W) BOTTOM (valueAt (ifdsProblem W) T n d)).
    { eapply C; [discriminate| | |exact Hs|exact (valid_vpath _ _ _ V)].
      - intros n0 facts d0 v0 Hin Hf. destruct (bottomSeeds_In _ _ _ _ _ Hin Hf) as [-> _]. discriminate.
      - apply bottomSeeds_starts. auto. }
    unfold valueAt in X. rewrite E in X. discriminate X.
  Qed.
End P.
