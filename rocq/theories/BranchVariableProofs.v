(** The Variables of a constraint: proofs. *)
From Coq Require Import String List Bool Arith ZArith Lia.
From Verif Require Import Assoc BranchConstraintModel BranchConstraintSpec BranchCacheProofs.
Import ListNotations.

Section Covered.
  Variable P : program.
  Notation defs := (pDefs P).
  Notation varName := (pVar P).
  Notation gepName := (pGepName P).
  Notation fnName := (pFn P).
  Notation fnRet := (pRet P).

  (** every constant is that of one of the variables; PHI is a dummy *)
  Definition cover (x : cav) : Prop :=
    (forall n, In n (names (fst x)) -> n = "PHI"%string \/ exists v, In v (snd x) /\ variable P n v) /\
    (forall v, In v (snd x) -> exists n, In n (names (fst x)) /\ variable P n v).
  Definition good (o : out cav) : Prop := forall x, o = ORet x -> cover x.
  Lemma const_names n t o e : constOf n t o = ORet e -> (forall e', o = ORet e' -> names e' = [n]) -> names e = [n].
  Proof. destruct t as [[|[|b]]| | |]; cbn; intros E H; try discriminate; try (injection E as <-; reflexivity). now apply H. Qed.
  Lemma single v n e : names e = [n] -> variable P n v -> cover (e, [v]).
  Proof.
    intros E V. split; cbn; rewrite ?E.
    - intros m [<-|[]]. right. exists v. split; [now left|assumption].
    - intros w [<-|[]]. exists n. split; [now left|assumption].
  Qed.
  Lemma good_bind (A : Type) (o : out A) (f : A -> out cav) : (forall a, o = ORet a -> good (f a)) -> good (obind o f).
  Proof. intros H x E. destruct o as [| | | |a]; try discriminate. cbn in E. now apply (H a eq_refl). Qed.
  Lemma good_nil e : names e = [] -> good (ORet (e, [])).
  Proof. intros E x [= <-]. split; cbn; rewrite ?E; intros ? []. Qed.
  Lemma cover_app a b e : cover a -> cover b -> names e = names (fst a) ++ names (fst b) -> cover (e, snd a ++ snd b).
  Proof.
    intros [A1 A2] [B1 B2] E. split; cbn.
    - rewrite E. intros n H. apply in_app_or in H. destruct H as [H|H].
      + destruct (A1 n H) as [?|[v [Hv K]]]; [now left|]. right. exists v. split; auto. apply in_or_app. now left.
      + destruct (B1 n H) as [?|[v [Hv K]]]; [now left|]. right. exists v. split; auto. apply in_or_app. now right.
    - rewrite E. intros v H. apply in_app_or in H. destruct H as [H|H].
      + destruct (A2 v H) as [n [Hn K]]. exists n. split; auto. apply in_or_app. now left.
      + destruct (B2 v H) as [n [Hn K]]. exists n. split; auto. apply in_or_app. now right.
  Qed.
  Lemma cover_same a e : cover a -> names e = names (fst a) -> cover (e, snd a).
  Proof. intros [A1 A2] E. split; cbn; rewrite E; auto. Qed.

  Lemma good_alloca v t : defs v = DAlloca t -> good (pAlloca varName v t).
  Proof.
    intros Ed. apply good_bind. intros e Ee x [= <-]. apply single with (n := varName v); [eapply const_names; [exact Ee|discriminate]|]. left. eauto.
  Qed.
  Lemma good_gep v t ops : defs v = DGep t ops -> good (pGep gepName v t).
  Proof.
    intros Ed. apply good_bind. intros e Ee x [= <-]. apply single with (n := gepName v); [eapply const_names; [exact Ee|intros e' [= <-]; reflexivity]|]. right. left. eauto.
  Qed.
  Lemma good_track : forall fuel w, good (pTrack defs varName gepName fuel w).
  Proof.
    induction fuel as [|fuel IH]; intros w; [intros x; discriminate|]. destruct w as [|v w]; [intros x; discriminate|]. cbn [pTrack].
    destruct (defs v) eqn:Ed; try apply IH; [now apply good_alloca|now apply (good_gep v _ ops)].
  Qed.
  Lemma good_load fuel v p : good (pLoad defs varName gepName fuel v p).
  Proof. unfold pLoad. destruct (defs p) eqn:Ed; try apply good_track; [now apply good_alloca|now apply (good_gep p _ ops)]. Qed.
  Lemma good_call callee : good (getFunctionCallAsZ3 fnName fnRet callee).
  Proof.
    destruct callee as [f|]; [|intros x; discriminate]. cbn. destruct (fnName f) as [n|] eqn:En; [|intros x; discriminate].
    apply good_bind. intros e Ee x [= <-]. apply single with (n := n); [eapply const_names; [exact Ee|discriminate]|]. right. now right.
  Qed.
  Lemma good_literal v : good (getLiteralAsZ3 defs v).
  Proof. unfold getLiteralAsZ3. destruct (defs v); try (intros x; discriminate); now apply good_nil. Qed.
  Lemma good_operand bin geps fuel op : (forall v, good (bin v)) -> good (pOperand defs varName gepName fnName fnRet bin geps fuel op).
  Proof.
    intros Hb. unfold pOperand. set (o := match defs op with DCast _ a => a | _ => op end). clearbody o. destruct (isConstantData defs o); [apply good_literal|].
    destruct (defs o) eqn:Ed; try (intros x; discriminate); [apply good_load| |auto|apply good_call].
    destruct geps; [now apply (good_gep o _ ops)|intros x; discriminate].
  Qed.
  Lemma mkBin_names o a b e : mkBin o a b = ORet e -> names e = names a ++ names b.
  Proof. destruct o; cbn; unfold mkArith, mkShift, mkBits; destruct (sortOf a), (sortOf b); intros [= <-]; reflexivity. Qed.
  Lemma mkRel_names r a b e : mkRel r a b = ORet e -> names e = names a ++ names b.
  Proof. destruct r; cbn; destruct (sortOf a), (sortOf b); intros [= <-]; reflexivity. Qed.
  Lemma good_bin : forall fuel v, good (pBin defs varName gepName fnName fnRet fuel v).
  Proof.
    induction fuel as [|fuel IH]; intros v; [intros x; discriminate|]. cbn [pBin]. destruct (defs v); try (intros x; discriminate).
    apply good_bind. intros l El. apply good_bind. intros r Er. apply good_bind. intros e Ee x [= <-].
    apply cover_app; [eapply good_operand; eauto|eapply good_operand; eauto|now apply (mkBin_names o)].
  Qed.
  Lemma good_cmp fuel v : good (pCmp defs varName gepName fnName fnRet fuel v).
  Proof.
    unfold pCmp. destruct (defs v); try (intros x; discriminate); apply good_bind; intros l El; apply good_bind; intros r Er; [|intros x; discriminate].
    apply good_bind. intros e Ee x [= <-].
    apply cover_app; [eapply good_operand; eauto using good_bin|eapply good_operand; eauto using good_bin|now apply (mkRel_names (relOf p))].
  Qed.
  Lemma good_phiValue fuel t v : good (pPhiValue defs varName gepName fnName fnRet fuel (constOf "PHI" t OFatal) v).
  Proof.
    unfold pPhiValue. destruct (defs v); try (intros x; discriminate); auto using good_load, good_call, good_cmp.
    destruct (_ || _); [now apply good_nil|]. destruct (_ =? _)%Z; [now apply good_nil|]. apply good_bind. intros e Ee x [= <-].
    pose proof (const_names _ _ _ _ Ee ltac:(discriminate)) as E. split; cbn; rewrite ?E; [|intros ? []]. intros n [<-|[]]. now left.
  Qed.
  Lemma good_phiValues fuel t : forall l acc, cover acc -> good (pPhiValues defs varName gepName fnName fnRet fuel (constOf "PHI" t OFatal) l acc).
  Proof.
    induction l as [|v l IH]; intros acc Ha; cbn [pPhiValues]; [intros x [= <-]; exact Ha|].
    apply good_bind. intros r Er. apply good_bind. intros e Ee. apply IH. apply cover_app; [exact Ha|now apply (good_phiValue fuel t v)|].
    unfold mkOr in Ee. destruct (sortOf (fst acc)), (sortOf (fst r)); try discriminate. now injection Ee as <-.
  Qed.
  Lemma good_phi fuel v : good (pPhi defs varName gepName fnName fnRet fuel v).
  Proof.
    unfold pPhi. destruct (defs v); try (intros x; discriminate).
    assert (K : cover (EBool true, [])) by (split; cbn; intros ? []). destruct t; try (intros x; discriminate);
      match goal with |- context [constOf "PHI" ?t _] => now apply (good_phiValues fuel t) end.
  Qed.
  Lemma good_edge fuel from to x :
    pEdge defs (pDbg P) (pBlock P) (pInsts P) varName gepName fnName fnRet (pIgnore P) fuel from to = ORet (Some x) -> cover x.
  Proof.
    unfold pEdge. destruct (defs from) as [| | | | | | | | | | | | |c t f| |]; try discriminate. destruct (isBranchTarget _ _ _ _); [|discriminate].
    destruct (pCondBr _ _ _ _ _ _ _ _ fuel c t f _) as [| | | |y] eqn:Ey; try discriminate. cbn. intros [= <-]. revert Ey.
    enough (K : good (pCondBr defs (pDbg P) (pInsts P) varName gepName fnName fnRet (pIgnore P) fuel c t f (rewind (pDbg P) (pBlock P) (pInsts P) (pIgnore P) to))) by (intros Ey; now apply K).
    set (s := rewind _ _ _ _ to). clearbody s.
    assert (B : forall h, good h -> good (match pByEdge (pDbg P) (pInsts P) (pIgnore P) h t f s with Some r => r | None => OFatal end)).
    { intros h Hh. unfold pByEdge. destruct (eqb _ _); [exact Hh|]. destruct (eqb _ _); [|intros z; discriminate].
      apply good_bind. intros r Er. apply good_bind. intros e Ee z [= <-]. apply cover_same; [now apply Hh|].
      unfold mkNot in Ee. destruct (sortOf (fst r)); try discriminate. now injection Ee as <-. }
    unfold pCondBr. destruct (defs c) as [| | | | | | | | | |k a|callee ops|ty ins| | |]; try (intros w; discriminate);
      try solve [apply B; auto using good_cmp, good_bin, good_call|apply good_phi].
    destruct k as [[|[|bits]]| | |]; try (intros w; discriminate). destruct (defs a); try (intros w; discriminate).
    apply good_bind. intros r Er. apply good_bind. intros m Em. apply good_bind. intros e Ee z [= <-]. apply cover_same; [now apply (good_load fuel a p)|].
    apply mkRel_names in Ee. unfold mkMod in Em. destruct (sortOf (fst r)); try discriminate. cbn in Em. injection Em as <-. rewrite Ee. cbn. now rewrite !app_nil_r.
  Qed.
End Covered.
