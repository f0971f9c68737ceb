From Coq Require Import List Bool ZArith Arith Lia.
From Verif Require Import Assoc TableModel LatticeModel LatticeSpec LatticeProofs LCAModel LCASpec LCAProperties
  IDESolverModel IDESpec EdgeFunctionModel EdgeFunctionProofs
  LLVMFlowFunctionsModel LLVMFlowFunctionsSpec LLVMFlowFunctionsProofs LLVMFlowFunctionsProperties
  LCAProgramModel LCAProgramSpec.
Import ListNotations.

Lemma Zeqb_eq' x y : Z.eqb x y = true <-> x = y. Proof. apply Z.eqb_eq. Qed.

Section P.
  Context {N F : Type} {EN : EqDec N} {EF : EqDec F}.
  Local Notation value := (value N F).
  Local Notation var := (var N F).
  Variable soo : bool.
  Variable p : prog N F.
  Local Notation lcl := (@lclient N F EN EF).
  Local Notation binop := (@binop N F EN EF).
  Local Notation P := (lcaProblem soo p).
  Local Notation G := (lcaICFG p).

  (** *** edge functions *)
  Lemma lop_ok : lops_ok lop.
  Proof.
    split; [apply ldJoin_leibniz; apply Zeqb_eq'|]. intros [|a|] [|b|]; cbn; try (split; congruence).
    unfold ldEqb. cbn. rewrite Z.eqb_eq. split; congruence.
  Qed.

  Lemma linear_eq (a b : binOp var) : linear a = true -> linear b = true -> binOpEqb a b = true -> a = b.
  Proof.
    destruct a as [oa la ra ca], b as [ob lb rb cb]. unfold linear. cbn [bOp bL bR bCur]. intros Ha Hb He.
    assert (E : oa = ob /\ la = lb /\ ra = rb).
    { unfold binOpEqb in He. cbn in He. destruct oa, ob; try discriminate; apply andb_true_iff in He as [H1 H2];
        apply eqb_eq in H1; apply eqb_eq in H2; auto. }
    destruct E as (-> & -> & ->). f_equal.
    destruct (sext lb), (sext rb); try discriminate; repeat match goal with H : _ && _ = true |- _ => apply andb_true_iff in H as [H _] end;
      apply eqb_eq in Ha; apply eqb_eq in Hb; congruence.
  Qed.

  Definition lclient1 : clientops lval binop :=
    mkClient lval binop (fun b x => runBin (proj1_sig b) x) (fun _ => false) eqBin
      (fun b g => EComp (EUser b) g) (fun _ _ => EBot) (fun _ _ _ => EBot).
  Lemma lclient1_ok : client_ok lop lclient1.
  Proof.
    split; cbn; auto; try discriminate.
    - intros [a Ha] [b Hb] x E. cbn. unfold eqBin in E. cbn in E. now rewrite (linear_eq a b Ha Hb E).
    - intros u g x. split; apply (le_bot lop lop_ok).
    - intros a b g x. split; apply (le_bot lop lop_ok).
  Qed.
  Lemma anyLt_ok : ltb_ok lop lclient1 anyLt.
  Proof. intros k a b H _. unfold anyLt in H. apply negb_false_iff in H. exact H. Qed.
  Lemma anyLt_ok' : ltb_ok lop lcl anyLt.
  Proof. exact anyLt_ok. Qed.
  Lemma lclient_ok : client_ok lop lcl.
  Proof.
    split.
    - apply (co_eqb _ _ lclient1_ok).
    - discriminate.
    - intros u g x. cbn [ucompose lclient].
      destruct (defaultComposeOrNull lclient0 (EUser u) g) as [h|] eqn:E; [|reflexivity].
      exact (defaultCompose_exact lop lclient1 lclient1_ok (EUser u) g h x E).
    - intros u g x. cbn [ujoin lclient].
      destruct (defaultJoinOrNull lop lclient0 _ 0 (EUser u) g) as [h|] eqn:E; [|split; apply (le_bot lop lop_ok)].
      exact (defaultJoin_ub lop lclient1 anyLt lop_ok lclient1_ok anyLt_ok 0 (EUser u) g h x E).
    - intros a b g x. cbn [cjoin lclient].
      destruct (defaultJoinOrNull lop lclient0 _ 0 (EComp a b) g) as [h|] eqn:E; [|split; apply (le_bot lop lop_ok)].
      exact (defaultJoin_ub lop lclient1 anyLt lop_ok lclient1_ok anyLt_ok 0 (EComp a b) g h x E).
  Qed.

  Lemma runBin_nontop (b : binOp var) x : runBin b x <> LTop.
  Proof.
    unfold runBin. assert (X : forall op l r, execute op l r <> Ok LTop).
    { intros op l r E. destruct (C27_otherwise_bottom _ _ _ _ E) as [[H|(? & ? & ? & _ & _ & H)] _]; discriminate. }
    destruct (computeTarget b x) as [l| |] eqn:E; try discriminate. intros ->. revert E. unfold computeTarget.
    repeat match goal with |- (match ?c with _ => _ end = _) -> _ => destruct c end; try discriminate; apply X.
  Qed.
  Lemma runBin_bot (b : binOp var) x : runBin b x = runBin b LBot \/ runBin b LBot = LBot.
  Proof.
    unfold runBin, computeTarget. destruct (bCur b), (sext (bL b)), (sext (bR b)); cbn; auto.
  Qed.

  Lemma lle_iff (x y : lval) : le lop x y <-> x = LTop \/ x = y \/ y = LBot.
  Proof.
    unfold le. cbn. split.
    - unfold ldJoin, ldEqb. destruct x as [|a|], y as [|b|]; cbn; auto; try discriminate.
      destruct (Z.eqb_spec a b) as [->|E]; auto; discriminate.
    - intros [->|[->| ->]]; [reflexivity|apply (le_refl lop lop_ok)|apply (le_bot lop lop_ok)].
  Qed.

  Lemma apply_mono_nt (f : ef lval binop) : occurs f = true ->
    forall x y, x <> LTop -> le lop x y -> le lop (apply lop lcl f x) (apply lop lcl f y).
  Proof.
    induction f as [| | |v|n s vec|n f1 IH1 f2 IH2|f1 IH1 f2 IH2|u]; intros Hf x y Hx Hxy; try discriminate Hf;
      try exact Hxy; try apply (le_refl lop lop_ok).
    - destruct f1; try discriminate Hf. cbn [apply]. apply IH2; auto; [apply runBin_nontop|].
      apply (IH1 eq_refl x y Hx Hxy).
    - cbn [apply uapply lclient]. apply lle_iff. apply lle_iff in Hxy as [->|[->| ->]]; [now elim Hx|auto|].
      destruct (runBin_bot (proj1_sig u) x); auto.
  Qed.

  Lemma compose_sound_nt (f : ef lval binop) : occurs f = true ->
    forall g x, apply lop lcl f x <> LTop -> le lop (apply lop lcl g (apply lop lcl f x)) (apply lop lcl (compose lop lcl soo f g) x).
  Proof.
    induction f as [| | |v|n s vec|n f1 IH1 f2 IH2|f1 IH1 f2 IH2|u]; intros Hf g x Hx; try discriminate Hf; cbn [compose].
    - apply (le_refl lop lop_ok).
    - destruct (isConstant lcl g) eqn:E; [|apply (le_bot lop lop_ok)].
      rewrite (isConstant_sound lop lcl lclient_ok g x (apply lop lcl EBot x) E). apply (le_refl lop lop_ok).
    - now elim Hx.
    - change (match defaultComposeOrNull lcl (EConst v) g with Some h => h | None => _ end) with (compose lop lcl soo (EConst v) g).
      rewrite (compose_EConst lop lcl soo lop_ok lclient_ok). apply (le_refl lop lop_ok).
    - destruct (defaultComposeOrNull lcl (EComp f1 f2) g) as [h|] eqn:E.
      + rewrite (defaultCompose_exact lop lcl lclient_ok _ _ _ x E). apply (le_refl lop lop_ok).
      + destruct f1 as [| | | | | | |u]; try discriminate Hf. cbn [compose].
        rewrite (co_compose _ _ lclient_ok u). cbn [apply] in Hx |- *. apply IH2; auto.
    - rewrite (co_compose _ _ lclient_ok u). apply (le_refl lop lop_ok).
  Qed.

  Lemma lca_ef_sound : ef_sound_nt P.
  Proof.
    split; unfold lle; cbn.
    - intros [f Hf] x y Hx Hxy. now apply apply_mono_nt.
    - reflexivity.
    - reflexivity.
    - intros [f Hf] [g Hg] E x. cbn in *. now apply (efEqb_sound lop lcl lop_ok lclient_ok).
    - intros [f Hf] [g Hg] x Hx. now apply compose_sound_nt.
    - intros [f Hf] [g Hg] x. apply (join_ub lop lcl soo anyLt lop_ok lclient_ok anyLt_ok').
    - intros [f Hf] [g Hg] x. apply (join_ub lop lcl soo anyLt lop_ok lclient_ok anyLt_ok').
  Qed.
  Lemma lca_lattice : lattice_laws P.
  Proof.
    pose proof (lo_sl _ lop_ok) as S. split; cbn.
    - apply (sl_comm _ _ _ _ S).
    - apply (sl_assoc _ _ _ _ S).
    - apply (sl_idem _ _ _ _ S).
    - apply (sl_top _ _ _ _ S).
    - apply (lo_eqb _ lop_ok).
  Qed.

  (** *** control flow *)
  Hypothesis WF : prog_wf p.
  Lemma isStart_spec n : isStart p n = true <-> entry p (fnOf p n) = Some n.
  Proof.
    unfold isStart. destruct (entry p (fnOf p n)) as [sp|]; [|split; discriminate].
    rewrite eqb_true. split; congruence.
  Qed.
  Lemma lca_icfg_wf : icfg_wf G.
  Proof.
    assert (NS : forall n n', In n' (succs p n) -> isStart p n' = false).
    { intros n n' H. apply not_true_is_false. intros E. apply isStart_spec in E. now apply (pw_noentry p WF _ _ _ H) in E. }
    split; cbn; auto.
    - apply (pw_succ p WF).
    - apply (pw_succ p WF).
    - intros f sp H. destruct (entry p f) as [s|] eqn:E; [|destruct H]. destruct H as [->|[]]. now apply (pw_entry p WF).
    - intros n. rewrite isStart_spec. destruct (entry p (fnOf p n)) as [s|]; cbn; [|intuition discriminate].
      split; [intros [= ->]; now left|intros [->|[]]; auto].
    - intros c. rewrite filter_In, andb_true_iff, eqb_true. pose proof (pw_nodes p WF c). intuition.
    - intros f c H. apply filter_In in H as [_ H]. apply andb_true_iff in H as [_ H]. now apply eqb_eq in H.
    - intros n. rewrite filter_In, andb_true_iff, !negb_true_iff. pose proof (pw_nodes p WF n). intuition.
  Qed.
  Lemma lca_seeds_at_starts main : seeds_at_starts G (lcaSeeds p main).
  Proof.
    intros n facts H. unfold lcaSeeds in H. destruct (entry p main) as [sp|] eqn:E; [|destruct H].
    destruct H as [[= <- _]|[]]. cbn. apply isStart_spec. now rewrite (pw_entry p WF _ _ E).
  Qed.
End P.
