(** Proofs about type-state edge functions and automata. *)
From Coq Require Import String.
From Coq Require Import Bool List Arith Lia.
From Verif Require Import Assoc TypeStateModel TypeStateSpec.
Import ListNotations.
Open Scope nat_scope.

Section D.
  Variable d : tsd.
  Hypothesis OK : table_ok d.
  Let apply := apply d.
  Let compose := compose d.

  Lemma apply_total : forall f x, wf d f -> In x (states d) -> exists y, apply f x = Some y /\ In y (states d).
  Proof.
    destruct OK as [It [Ib [Iu [Nu [Nb N]]]]].
    induction f as [| | |v|t c|a IHa b IHb]; intros x W Ix; unfold apply in *; cbn [TypeStateModel.apply].
    - eauto.
    - eauto.
    - eauto.
    - eauto.
    - destruct (x =? top d) eqn:E.
      + destruct (N t c (uninit d) Iu Nu) as [s' [H1 [H2 _]]]. eauto.
      + apply Nat.eqb_neq in E. destruct (N t c x Ix E) as [s' [H1 [H2 _]]]. eauto.
    - destruct W as [Wa Wb]. destruct (IHa x Wa Ix) as [y [Hy Iy]]. rewrite Hy. now apply IHb.
  Qed.
  Lemma defaultCompose_exact : forall f g h x, wf d f -> wf d g -> In x (states d) -> defaultCompose f g = Some h ->
    wf d h /\ forall y, apply f x = Some y -> apply h x = apply g y.
  Proof.
    intros f g h x Wf Wg Ix. unfold defaultCompose, apply.
    destruct g; cbn; intro H; try discriminate; injection H as <-; split; auto.
  Qed.
  (** composing never gets stuck *)
  Lemma compose_total : forall f g, wf d f -> wf d g -> exists h, compose f g = Some h /\ wf d h.
  Proof.
    induction f as [| | |v|t c|a IHa b IHb]; intros g Wf Wg; unfold compose in *; cbn [TypeStateModel.compose].
    - eauto.
    - exists (if isConstant g then g else AllBottom). split; auto. now destruct (isConstant g).
    - eexists. split; [reflexivity|]. now destruct g.
    - destruct (defaultCompose (Const v) g) as [h|] eqn:D.
      { exists h. split; auto. destruct OK as [It _]. exact (proj1 (defaultCompose_exact _ _ _ _ Wf Wg It D)). }
      destruct (apply_total g v Wg Wf) as [r [Hr Ir]]. unfold apply in Hr. rewrite Hr.
      eexists. split; [reflexivity|]. destruct (r =? v); auto. destruct (r =? bot d); cbn; auto.
    - eexists. split; [reflexivity|]. destruct (defaultCompose (TS t c) g) as [h|] eqn:D; [|cbn; auto].
      destruct OK as [It _]. exact (proj1 (defaultCompose_exact _ _ _ _ Wf Wg It D)).
    - destruct (defaultCompose (Comp a b) g) as [h|] eqn:D.
      { exists h. split; auto. destruct OK as [It _]. exact (proj1 (defaultCompose_exact _ _ _ _ Wf Wg It D)). }
      destruct Wf as [Wa Wb]. destruct (IHb g Wb Wg) as [bg [Hbg Wbg]]. rewrite Hbg. now apply IHa.
  Qed.
  Lemma le_refl : forall x, le d x x. Proof. now left. Qed.
  Lemma le_trans : forall x y z, le d x y -> le d y z -> le d x z.
  Proof.
    destruct OK as [_ [_ [_ [_ [Nb _]]]]].
    unfold le. intros x y z [-> | [-> | ->]] [-> | [E | E]]; auto. elim (Nb E).
  Qed.
  Lemma compose_sound : forall f g h x y z, wf d f -> wf d g -> noTop f -> In x (states d) ->
    compose f g = Some h -> apply f x = Some y -> apply g y = Some z ->
    exists z', apply h x = Some z' /\ le d z z' /\ (noBot f -> z' = z).
  Proof.
    induction f as [| | |v|t c|a IHa b IHb]; intros g h x y z Wf Wg NT Ix Hc Hf Hg; unfold compose in *; cbn [TypeStateModel.compose] in Hc.
    - injection Hc as <-. injection Hf as <-. exists z. split; [exact Hg|]. split; [apply le_refl|auto].
    - injection Hc as <-. injection Hf as <-. destruct (isConstant g) eqn:E.
      + exists z. split; [destruct g; try discriminate; exact Hg|]. split; [apply le_refl|auto].
      + exists (bot d). split; [reflexivity|]. split; [right; now right|intros []].
    - destruct NT.
    - destruct (defaultCompose (Const v) g) as [h'|] eqn:D.
      { injection Hc as <-. destruct (defaultCompose_exact _ _ _ x Wf Wg Ix D) as [_ E].
        exists z. rewrite (E y Hf), Hg. split; [reflexivity|]. split; [apply le_refl|auto]. }
      injection Hf as <-. unfold apply in Hg. rewrite Hg in Hc. injection Hc as <-.
      exists z. split; [|split; [apply le_refl|auto]].
      destruct (z =? v) eqn:E; [apply Nat.eqb_eq in E; subst; reflexivity|].
      destruct (z =? bot d) eqn:E2; [apply Nat.eqb_eq in E2; subst; reflexivity|reflexivity].
    - injection Hc as <-. exists z. split; [|split; [apply le_refl|auto]].
      destruct (defaultCompose (TS t c) g) as [h'|] eqn:D.
      + destruct (defaultCompose_exact _ _ _ x Wf Wg Ix D) as [_ E]. now rewrite (E y Hf).
      + unfold apply. cbn [TypeStateModel.apply]. unfold apply in Hf. cbn [TypeStateModel.apply] in Hf. rewrite Hf. exact Hg.
    - destruct (defaultCompose (Comp a b) g) as [h'|] eqn:D.
      { injection Hc as <-. destruct (defaultCompose_exact _ _ _ x Wf Wg Ix D) as [_ E].
        exists z. rewrite (E y Hf), Hg. split; [reflexivity|]. split; [apply le_refl|auto]. }
      destruct Wf as [Wa Wb]. destruct NT as [NTa NTb].
      destruct (compose_total b g Wb Wg) as [bg [Hbg Wbg]]. unfold compose in Hbg. rewrite Hbg in Hc.
      destruct (apply_total a x Wa Ix) as [w [Hw Iw]].
      unfold apply in Hf. cbn [TypeStateModel.apply] in Hf. unfold apply in Hw. rewrite Hw in Hf.
      destruct (IHb g bg w y z Wb Wg NTb Iw Hbg Hf Hg) as [z1 [Z1 [L1 E1]]].
      destruct (IHa bg h x w z1 Wa Wbg NTa Ix Hc Hw Z1) as [z2 [Z2 [L2 E2]]].
      exists z2. split; auto. split; [now apply (le_trans z z1 z2)|].
      intros [Na Nb]. rewrite (E2 Na). apply (E1 Nb).
  Qed.

  (** ** sequences of calls *)
  Fixpoint pure (f : tsef) : Prop :=
    match f with Id | TS _ _ => True | Comp a b => pure a /\ pure b | _ => False end.
  Lemma pure_facts : forall f, pure f -> wf d f /\ noTop f /\ noBot f.
  Proof. induction f; cbn; intro H; try tauto. Qed.
  Lemma compose_pure : forall f g, pure f -> pure g -> exists h, compose f g = Some h /\ pure h.
  Proof.
    induction f as [| | |v|t c|a IHa b IHb]; intros g Pf Pg; try (now destruct Pf); unfold compose in *; cbn [TypeStateModel.compose].
    - eauto.
    - eexists. split; [reflexivity|]. destruct g; cbn in *; try tauto.
    - destruct Pf as [Pa Pb]. assert (D : defaultCompose (Comp a b) g = Some (Comp a b) \/ defaultCompose (Comp a b) g = None).
      { destruct g; cbn in *; auto; destruct Pg. }
      destruct D as [D|D]; rewrite D.
      + exists (Comp a b). cbn. auto.
      + destruct (IHb g Pb Pg) as [bg [Hbg Wbg]]. rewrite Hbg. now apply IHa.
  Qed.
  Lemma run_total : forall w s, In s (states d) -> s <> top d -> exists s', run d w s = Some s' /\ In s' (states d) /\ s' <> top d.
  Proof.
    destruct OK as [_ [_ [_ [_ [_ N]]]]].
    induction w as [|[t c] w IH]; intros s Is Ns; cbn [run]; [eauto|].
    destruct (N t c s Is Ns) as [s' [H [I' N']]]. rewrite H. now apply IH.
  Qed.
  Lemma seqEF_run : forall w acc, pure acc ->
    exists h, seqEF d acc w = Some h /\
      forall x y, In x (states d) -> apply acc x = Some y -> y <> top d -> apply h x = run d w y.
  Proof.
    induction w as [|[t c] w IH]; intros acc P; cbn [seqEF run].
    - exists acc. split; auto.
    - destruct (compose_pure acc (TS t c) P I) as [k [Hk Pk]]. pose proof Hk as Hk2; unfold compose in Hk2; rewrite Hk2.
      destruct (IH k Pk) as [h [Hh E]]. exists h. split; auto. intros x y Ix Hx Ny.
      destruct (pure_facts acc P) as [W [NT NB]].
      assert (Iy : In y (states d)).
      { destruct (apply_total acc x W Ix) as [y' [H1 H2]]. rewrite Hx in H1. now injection H1 as <-. }
      destruct OK as [_ [_ [_ [_ [_ N]]]]]. destruct (N t c y Iy Ny) as [s' [H [I' N']]].
      assert (G : apply (TS t c) y = Some s').
      { unfold apply. cbn [TypeStateModel.apply]. apply Nat.eqb_neq in Ny. now rewrite Ny. }
      destruct (compose_sound acc (TS t c) k x y s' W I NT Ix Hk Hx G) as [z [Z1 [_ Z2]]].
      rewrite (Z2 NB) in Z1. rewrite H. now apply E.
  Qed.
  Lemma seqEF_run_id : forall w, exists h, seqEF d Id w = Some h /\
      forall x, In x (states d) -> w <> [] -> apply h x = run d w (norm d x).
  Proof.
    intros [|[t c] w].
    - exists Id. split; auto. intros x _ N. now elim N.
    - destruct (seqEF_run w (TS t c) I) as [h [Hh E]]. exists h. split; [exact Hh|]. intros x Ix _. cbn [run].
      destruct (apply_total (TS t c) x I Ix) as [y [Hy Iy]].
      unfold apply in Hy. cbn [TypeStateModel.apply] in Hy. fold (norm d x) in Hy. rewrite Hy.
      apply E; auto.
      destruct OK as [_ [_ [Iu [Nu [_ N]]]]].
      assert (Q : In (norm d x) (states d) /\ norm d x <> top d).
      { unfold norm. destruct (x =? top d) eqn:F; auto. apply Nat.eqb_neq in F. auto. }
      destruct Q as [Q1 Q2]. destruct (N t c _ Q1 Q2) as [s' [H [_ N']]]. rewrite Hy in H. now injection H as ->.
  Qed.

  (** ** equality and join *)
  Lemma efEqb_eq : forall f g, efEqb f g = true -> f = g.
  Proof.
    induction f as [| | |v|t c|a IHa b IHb]; destruct g; cbn; intro H; try discriminate; auto.
    - apply Nat.eqb_eq in H. now subst.
    - apply andb_true_iff in H. destruct H as [H1 H2]. apply Nat.eqb_eq in H1. apply eqb_eq in H2. now subst.
    - apply andb_true_iff in H. destruct H as [H1 H2]. now rewrite (IHa _ H1), (IHb _ H2).
  Qed.
  Definition ub (h f g : tsef) : Prop :=
    forall x yf yg, apply f x = Some yf -> apply g x = Some yg ->
      exists y, apply h x = Some y /\ le d yf y /\ le d yg y.
  Lemma ub_bottom : forall f g, ub AllBottom f g.
  Proof. intros f g x yf yg _ _. exists (bot d). split; [reflexivity|]. split; right; now right. Qed.
  Lemma ub_same : forall f, ub f f f.
  Proof. intros f x yf yg H1 H2. rewrite H1 in H2. injection H2 as <-. exists yf. split; auto. split; apply le_refl. Qed.
  Lemma ub_top_r : forall f, ub f f AllTop.
  Proof. intros f x yf yg H1 H2. injection H2 as <-. exists yf. split; auto. split; [apply le_refl|]. right. now left. Qed.
  Lemma ub_comm : forall h f g, ub h f g -> ub h g f.
  Proof. intros h f g H x yf yg H1 H2. destruct (H x yg yf H2 H1) as [y [A [B C]]]. eauto. Qed.
  Lemma defaultJoin_ub : forall f g h, defaultJoin f g = Some h -> ub h f g.
  Proof.
    intros f g h H. unfold defaultJoin in H.
    destruct g as [| | |v|t c|a b]; try (injection H as <-; first [apply ub_bottom|apply ub_top_r]);
      destruct (efEqb _ f) eqn:E; try discriminate; injection H as <-; apply efEqb_eq in E; subst f; apply ub_same.
  Qed.
  Lemma joinNonId_ub : forall f g, f <> Id -> ub (joinNonId d f g) f g.
  Proof.
    intros f g N. destruct f as [| | |v|t c|a b]; cbn [joinNonId].
    - now elim N.
    - apply ub_bottom.
    - apply ub_comm, ub_top_r.
    - destruct (defaultJoin (Const v) g) as [h|] eqn:D; [now apply defaultJoin_ub|].
      destruct g as [| | |w|t c|a b]; try apply ub_bottom.
      intros x yf yg H1 H2. injection H1 as <-. injection H2 as <-.
      destruct (w =? v) eqn:E1; cbn [orb].
      + apply Nat.eqb_eq in E1. subst w. exists v. split; [reflexivity|]. split; apply le_refl.
      + destruct (w =? top d) eqn:E2.
        * apply Nat.eqb_eq in E2. exists v. split; [reflexivity|]. split; [apply le_refl|]. right. left. exact E2.
        * destruct (v =? top d) eqn:E3.
          -- apply Nat.eqb_eq in E3. exists w. split; [reflexivity|]. split; [right; left; exact E3|apply le_refl].
          -- exists (bot d). split; [reflexivity|]. split; right; now right.
    - destruct (defaultJoin (TS t c) g) as [h|] eqn:D; [now apply defaultJoin_ub|apply ub_bottom].
    - destruct (defaultJoin (Comp a b) g) as [h|] eqn:D; [now apply defaultJoin_ub|apply ub_bottom].
  Qed.
  Lemma joinEF_ub : forall f g, ub (joinEF d f g) f g.
  Proof.
    intros f g. destruct f; try (apply joinNonId_ub; discriminate).
    destruct g; cbn [joinEF];
      first [apply ub_same | apply ub_bottom | apply ub_top_r | apply ub_comm; apply joinNonId_ub; discriminate].
  Qed.
  Lemma join_lub : forall x y, le d x (join d x y) /\ le d y (join d x y)
    /\ forall z, le d x z -> le d y z -> le d (join d x y) z.
  Proof.
    intros x y. unfold join, le.
    destruct (x =? y) eqn:E; [apply Nat.eqb_eq in E; subst; auto|].
    destruct (x =? top d) eqn:E1; [apply Nat.eqb_eq in E1; auto|].
    destruct (y =? top d) eqn:E2; [apply Nat.eqb_eq in E2; auto|].
    apply Nat.eqb_neq in E. apply Nat.eqb_neq in E1. apply Nat.eqb_neq in E2.
    split; [auto|]. split; [auto|]. intros z [->|[H|H]] [H'|[H'|H']]; subst; auto; congruence.
  Qed.
End D.

(** ** the tables *)
Lemma smem_In : forall s l, smem s l = true -> In s l.
Proof. intros s l H. unfold smem in H. apply existsb_exists in H. destruct H as [x [Hx E]]. apply eqb_eq in E. now subst. Qed.
Lemma tokOf_In : forall l star s, In (tokOf l star s) (star :: map snd l).
Proof.
  induction l as [|[n t] l IH]; intros star s; cbn [tokOf map snd]; [now left|].
  destruct (eqb s n); [right; now left|]. destruct (IH star s) as [H|H]; [now left|right; now right].
Qed.
Definition tblOk (tbl : list (list nat)) (toks sts : list nat) (top : nat) : bool :=
  forallb (fun t => forallb (fun s => (s =? top) ||
    match look tbl t s with Some r => existsb (Nat.eqb r) sts && negb (r =? top) | None => false end) sts) toks.
Lemma tblOk_ok : forall tbl l star sts top tok s, tblOk tbl (star :: map snd l) sts top = true ->
  In s sts -> s <> top -> exists r, look tbl (tokOf l star tok) s = Some r /\ In r sts /\ r <> top.
Proof.
  intros tbl l star sts top tok s H Is Ns. unfold tblOk in H. rewrite forallb_forall in H.
  specialize (H _ (tokOf_In l star tok)). rewrite forallb_forall in H. specialize (H s Is).
  apply orb_true_iff in H. destruct H as [H|H]; [apply Nat.eqb_eq in H; elim (Ns H)|].
  destruct (look tbl (tokOf l star tok) s) as [r|]; [|discriminate].
  apply andb_true_iff in H. destruct H as [H1 H2]. exists r. split; auto.
  apply existsb_exists in H1. destruct H1 as [y [Hy E]]. apply Nat.eqb_eq in E. subst y. split; auto.
  apply negb_true_iff, Nat.eqb_neq in H2. exact H2.
Qed.

Ltac ok_start := unfold table_ok; cbn [states top bot uninit err next];
  split; [cbn; tauto|]; split; [cbn; tauto|]; split; [cbn; tauto|]; split; [discriminate|]; split; [discriminate|];
  intros tok cs s Is Ns.
Lemma fileIO_ok : table_ok fileIO.
Proof.
  unfold fileIO. ok_start. unfold fileNext. destruct (_ || _).
  - now apply (tblOk_ok fileDelta [("fopen",0); ("fdopen",0); ("fclose",1)]%string 2 [42;0;1;2;3;4] 42).
  - exists 4. split; [reflexivity|]. split; [cbn; tauto|discriminate].
Qed.
Lemma kdf_ok : table_ok kdf.
Proof.
  unfold kdf. ok_start. destruct (smem tok _).
  - now apply (tblOk_ok kdfDelta [("EVP_KDF_fetch",0); ("EVP_KDF_free",1)]%string 2 [42;0;1;2;3] 42).
  - exists 3. split; [reflexivity|]. split; [cbn; tauto|discriminate].
Qed.
Lemma kdfCtx_ok : forall fetched, table_ok (kdfCtx fetched).
Proof.
  intro fetched. unfold kdfCtx. ok_start. destruct (smem tok _).
  - destruct (tblOk_ok ctxDelta ctxTok 4 [42;0;1;2;3;4;5] 42 tok s eq_refl Is Ns) as [r [H1 H2]]. rewrite H1.
    destruct (_ && _); [|eauto]. exists 4. split; [reflexivity|]. split; [cbn; tauto|discriminate].
  - exists 0. split; [reflexivity|]. split; [cbn; tauto|discriminate].
Qed.
Lemma secureHeap_ok : forall ready, table_ok (secureHeap ready).
Proof.
  intro ready. unfold secureHeap. ok_start. destruct (smem tok _).
  - destruct (negb (ready cs)).
    + exists 5. split; [reflexivity|]. split; [cbn; tauto|discriminate].
    + now apply (tblOk_ok heapDelta heapTok 4 [42;0;1;2;3;4;5] 42).
  - exists 5. split; [reflexivity|]. split; [cbn; tauto|discriminate].
Qed.
Lemma secureMemory_ok : table_ok secureMemory.
Proof.
  unfold secureMemory. ok_start. destruct (tokOf memTok 4 tok =? 4).
  - exists 0. split; [reflexivity|]. split; [cbn; tauto|discriminate].
  - now apply (tblOk_ok memDelta memTok 4 [42;0;1;2;3;4] 42).
Qed.

Lemma orb_smem : forall s a b, smem s a || smem s b = true -> In s (a ++ b).
Proof. intros s a b H. apply in_or_app. apply orb_true_iff in H. destruct H as [H|H]; [left|right]; now apply smem_In. Qed.
Ltac names H := cbn in H; repeat (destruct H as [<-|H]; [try reflexivity|]); try (now destruct H).

Lemma fileIO_sticks : errorSticks fileIO (fun t => isFactory fileIO t || isConsuming fileIO t).
Proof. intros tok cs H. apply orb_smem in H. names H. Qed.
Lemma kdf_sticks : errorSticks kdf (fun t => isFactory kdf t || isConsuming kdf t).
Proof. intros tok cs H. apply orb_smem in H. names H. Qed.
Lemma kdfCtx_sticks : forall f, errorSticks (kdfCtx f) (fun t => isFactory (kdfCtx f) t || isConsuming (kdfCtx f) t).
Proof. intros f tok cs H. apply orb_smem in H. names H. cbn. now destruct (f cs). Qed.
Lemma secureMemory_sticks : errorSticks secureMemory (fun t => isFactory secureMemory t || isConsuming secureMemory t).
Proof. intros tok cs H. apply orb_smem in H. names H. Qed.
Lemma secureHeap_sticks : forall r, errorSticks (secureHeap r) (isConsuming (secureHeap r)).
Proof. intros r tok cs H. apply smem_In in H. names H; cbn; now destruct (r cs). Qed.

(** ** the edge at a call site *)
Lemma ctrEdge_cases : forall d cs zero ret same aliased l f, ctrEdge d cs zero ret same aliased l = Some f ->
  (f = Id /\ forall c, In c l -> ~ (isFactory d c = true /\ zero = true /\ ret = true)
                        /\ (isConsuming d c = true -> forall i, In i (consumerIdx d c) -> same = true -> aliased i = false))
  \/ (exists c s, In c l /\ isFactory d c = true /\ zero = true /\ ret = true /\ next d c cs (uninit d) = Some s /\ f = Const s)
  \/ (exists c i, In c l /\ isConsuming d c = true /\ In i (consumerIdx d c) /\ same = true /\ aliased i = true /\ f = TS c cs).
Proof.
  intros d cs zero ret same aliased. induction l as [|c l IH]; intros f H; cbn [ctrEdge] in H.
  - injection H as <-. left. split; [reflexivity|]. intros c [].
  - destruct (isFactory d c && zero && ret) eqn:F.
    { apply andb_true_iff in F. destruct F as [F F3]. apply andb_true_iff in F. destruct F as [F1 F2].
      destruct (next d c cs (uninit d)) as [s|] eqn:N; [|discriminate]. injection H as <-.
      right. left. exists c, s. split; [now left|]. auto 10. }
    destruct (isConsuming d c && _) eqn:E.
    { apply andb_true_iff in E. destruct E as [E1 E2]. apply existsb_exists in E2. destruct E2 as [i [Ii Hi]].
      apply andb_true_iff in Hi. destruct Hi as [Hi1 Hi2]. injection H as <-.
      right. right. exists c, i. split; [now left|]. auto 10. }
    destruct (IH f H) as [[-> A]|[[c' [s [I1 R]]]|[c' [i [I1 R]]]]].
    + left. split; [reflexivity|]. intros c' [<-|I']; [|now apply A]. split.
      * intros [H1 [H2 H3]]. rewrite H1, H2, H3 in F. discriminate.
      * intros HC i Ii Hs. rewrite HC in E. cbn [andb] in E. subst same.
        destruct (aliased i) eqn:Al; auto. rewrite <- E. symmetry. apply existsb_exists. exists i. split; auto.
    + right. left. exists c', s. split; [now right|exact R].
    + right. right. exists c', i. split; [now right|exact R].
Qed.

(** ** protocols *)
Open Scope string_scope.
Open Scope nat_scope.
Lemma run_err : forall d w, errorSticks d (fun t => isFactory d t || isConsuming d t) -> Forall (isAPI d) w -> run d w (err d) = Some (err d).
Proof.
  intros d w S. induction w as [|[t c] w IH]; intro F; [reflexivity|]. inversion F; subst. cbn [run].
  rewrite (S t c); auto.
Qed.
Ltac lift H := let E := fresh in pose proof H as E; cbn in E; repeat (destruct E as [<-|E]); try (now destruct E).

Lemma file_step : forall t c s, isAPI fileIO (t, c) -> s < 3 ->
  next fileIO t c s =
    Some (if (String.eqb t "fopen" || String.eqb t "fdopen")%bool then 1
          else if s =? 1 then (if String.eqb t "fclose" then 2 else 1) else 3).
Proof.
  intros t c s H L. apply orb_smem in H. unfold fst in H.
  assert (s = 0 \/ s = 1 \/ s = 2) as S3 by lia.
  lift H; destruct S3 as [->|[->| ->]]; reflexivity.
Qed.
Lemma file_protocol : forall w s, Forall (isAPI fileIO) w -> s < 3 ->
  (exists s', run fileIO w s = Some s' /\ ((s' = 3 /\ ~ fileLegal (s =? 1) w) \/ (s' < 3 /\ fileLegal (s =? 1) w))).
Proof.
  induction w as [|[t c] w IH]; intros s F L; cbn [run fileLegal].
  - exists s. split; [reflexivity|]. right. auto.
  - inversion F as [|x l A F' E]; subst. rewrite (file_step t c s A L).
    destruct (String.eqb t "fopen" || String.eqb t "fdopen")%bool.
    + apply (IH 1 F'). lia.
    + destruct (s =? 1).
      * destruct (String.eqb t "fclose").
        -- destruct (IH 2 F') as [s' [R H]]; [lia|]. exists s'. split; [exact R|]. cbn [Nat.eqb negb] in *. tauto.
        -- destruct (IH 1 F') as [s' [R H]]; [lia|]. exists s'. split; [exact R|]. cbn [Nat.eqb negb] in *. tauto.
      * exists 3. split; [apply (run_err fileIO w fileIO_sticks F')|]. left. split; [reflexivity|]. intros [H _]. discriminate.
Qed.

Lemma kdf_step : forall t c s, isAPI kdf (t, c) -> s < 2 ->
  next kdf t c s = Some (if String.eqb t "EVP_KDF_fetch" then (if s =? 1 then 2 else 1) else if s =? 1 then 0 else 2).
Proof.
  intros t c s H L. apply orb_smem in H. unfold fst in H. assert (s = 0 \/ s = 1) as S2 by lia.
  lift H; destruct S2 as [->| ->]; reflexivity.
Qed.
Lemma kdf_protocol : forall w s, Forall (isAPI kdf) w -> s < 2 ->
  (exists s', run kdf w s = Some s' /\ ((s' = 2 /\ ~ kdfLegal (s =? 1) w) \/ (s' < 2 /\ kdfLegal (s =? 1) w))).
Proof.
  induction w as [|[t c] w IH]; intros s F L; cbn [run kdfLegal].
  - exists s. split; [reflexivity|]. right. auto.
  - inversion F as [|x l A F' E]; subst. rewrite (kdf_step t c s A L).
    destruct (String.eqb t "EVP_KDF_fetch"); destruct (s =? 1).
    + exists 2. split; [apply (run_err kdf w kdf_sticks F')|]. left. split; [reflexivity|]. intros [H _]. discriminate.
    + destruct (IH 1 F') as [s' [R H]]; [lia|]. exists s'. split; [exact R|]. cbn [Nat.eqb] in H. tauto.
    + destruct (IH 0 F') as [s' [R H]]; [lia|]. exists s'. split; [exact R|]. cbn [Nat.eqb] in H. tauto.
    + exists 2. split; [apply (run_err kdf w kdf_sticks F')|]. left. split; [reflexivity|]. intros [H _]. discriminate.
Qed.

(** states of the context automaton other than error and bottom *)
Definition ctxSt (s : nat) : Prop := s = 5 \/ s = 1 \/ s = 2 \/ s = 3.
Definition ctxHave (s : nat) : bool := negb (s =? 5).
Definition ctxParams (s : nat) : bool := (s =? 2) || (s =? 3).
Lemma ctx_step : forall f t c s, isAPI (kdfCtx f) (t, c) -> ctxSt s ->
  exists s', next (kdfCtx f) t c s = Some s' /\
   if String.eqb t "EVP_KDF_CTX_new" then (if f c then s' = 1 else s' = 4)
   else if String.eqb t "EVP_KDF_CTX_set_params" then (if ctxHave s then s' = 2 else s' = 4)
   else if String.eqb t "EVP_KDF_derive" then (if ctxHave s && ctxParams s then s' = 3 else s' = 4)
   else (if ctxHave s then s' = 5 else s' = 4).
Proof.
  intros f t c s H L. apply orb_smem in H. unfold fst in H.
  destruct (f c) eqn:Q; lift H; destruct L as [->|[->|[->| ->]]]; (eexists; split; [cbn; rewrite ?Q; reflexivity|reflexivity]).
Qed.
Lemma ctx_protocol : forall f w s, Forall (isAPI (kdfCtx f)) w -> ctxSt s ->
  (exists s', run (kdfCtx f) w s = Some s' /\
     ((s' = 4 /\ ~ ctxLegal f (ctxHave s) (ctxParams s) w) \/ (ctxSt s' /\ ctxLegal f (ctxHave s) (ctxParams s) w))).
Proof.
  intros f. induction w as [|[t c] w IH]; intros s F L; cbn [run ctxLegal].
  - exists s. split; [reflexivity|]. right. auto.
  - inversion F as [|x l A F' E]; subst. destruct (ctx_step f t c s A L) as [s1 [N S1]]. rewrite N.
    pose proof (run_err (kdfCtx f) w (kdfCtx_sticks f) F') as RE. cbn [err] in RE.
    assert (Err : s1 = 4 -> run (kdfCtx f) w s1 = Some 4) by (intros ->; exact RE).
    assert (Go : ctxSt s1 -> exists s', run (kdfCtx f) w s1 = Some s' /\
       ((s' = 4 /\ ~ ctxLegal f (ctxHave s1) (ctxParams s1) w) \/ (ctxSt s' /\ ctxLegal f (ctxHave s1) (ctxParams s1) w)))
      by (apply (IH s1 F')).
    assert (ctxSt 1 /\ ctxSt 2 /\ ctxSt 3 /\ ctxSt 5) as [C1 [C2 [C3 C5]]] by (unfold ctxSt; auto 10).
    destruct (String.eqb t "EVP_KDF_CTX_new").
    { destruct (f c).
      - subst s1. destruct (Go C1) as [s' [R H]]. exists s'. split; [exact R|]. cbn in H. tauto.
      - exists 4. split; [auto|]. left. split; [reflexivity|]. intros [H _]. discriminate. }
    destruct (String.eqb t "EVP_KDF_CTX_set_params").
    { destruct (ctxHave s).
      - subst s1. destruct (Go C2) as [s' [R H]]. exists s'. split; [exact R|]. cbn in H. tauto.
      - exists 4. split; [auto|]. left. split; [reflexivity|]. intros [H _]. discriminate. }
    destruct (String.eqb t "EVP_KDF_derive").
    { destruct (ctxHave s); [destruct (ctxParams s)|]; cbn [andb] in S1.
      - subst s1. destruct (Go C3) as [s' [R H]]. exists s'. split; [exact R|]. cbn in H. tauto.
      - exists 4. split; [auto|]. left. split; [reflexivity|]. intros [_ [H _]]. discriminate.
      - exists 4. split; [auto|]. left. split; [reflexivity|]. intros [H _]. discriminate. }
    destruct (ctxHave s).
    + subst s1. destruct (Go C5) as [s' [R H]]. exists s'. split; [exact R|]. cbn in H. tauto.
    + exists 4. split; [auto|]. left. split; [reflexivity|]. intros [H _]. discriminate.
Qed.

Definition memCode (m : memSt) : nat := match m with unknown => 0 | zero => 1 | freed => 2 | dirty => 4 end.
Lemma mem_step : forall t c m, isAPI secureMemory (t, c) ->
  next secureMemory t c (memCode m) = Some
   (if String.eqb t "CRYPTO_malloc" then 4
    else if String.eqb t "CRYPTO_zalloc" then 1
    else if String.eqb t "CRYPTO_free" then (match m with zero => 2 | _ => 3 end)
    else match m with freed => 3 | unknown => 0 | _ => 1 end).
Proof. intros t c m H. apply orb_smem in H. unfold fst in H. lift H; destruct m; reflexivity. Qed.
Lemma mem_protocol : forall w m, Forall (isAPI secureMemory) w ->
  (run secureMemory w (memCode m) = Some 3 /\ ~ memLegal m w) \/
  (exists m', run secureMemory w (memCode m) = Some (memCode m') /\ memLegal m w).
Proof.
  induction w as [|[t c] w IH]; intros m F; cbn [run memLegal].
  - right. exists m. auto.
  - inversion F as [|x l A F' E]; subst. rewrite (mem_step t c m A).
    pose proof (run_err secureMemory w secureMemory_sticks F') as RE. cbn [err secureMemory] in RE.
    destruct (String.eqb t "CRYPTO_malloc"); [apply (IH dirty F')|].
    destruct (String.eqb t "CRYPTO_zalloc"); [apply (IH zero F')|].
    destruct (String.eqb t "CRYPTO_free").
    + destruct m; try (left; split; [exact RE|intros [H _]; discriminate]).
      destruct (IH freed F') as [[R H]|[m' [R H]]]; [left|right; exists m'; split; [exact R|tauto]].
      split; [exact R|]. tauto.
    + destruct m.
      * destruct (IH unknown F') as [[R H]|[m' [R H]]]; [left; split; [exact R|tauto]|right].
        exists m'. split; [exact R|]. split; [discriminate|exact H].
      * destruct (IH zero F') as [[R H]|[m' [R H]]]; [left; split; [exact R|tauto]|right].
        exists m'. split; [exact R|]. split; [discriminate|exact H].
      * destruct (IH zero F') as [[R H]|[m' [R H]]]; [left; split; [exact R|tauto]|right].
        exists m'. split; [exact R|]. split; [discriminate|exact H].
      * left. split; [exact RE|]. intros [H _]. now elim H.
Qed.
