(** Proofs about the instruction interaction analysis. *)
From Coq Require Import Bool List Arith NArith Lia.
From Verif Require Import Assoc IIAModel IIASpec.
Import ListNotations.

Lemma joinL_assoc : forall a b c, joinL (joinL a b) c = joinL a (joinL b c).
Proof. intros [| |a] [| |b] [| |c]; cbn; auto. now rewrite N.lor_assoc. Qed.
Lemma joinL_comm : forall a b, joinL a b = joinL b a.
Proof. intros [| |a] [| |b]; cbn; auto. now rewrite N.lor_comm. Qed.
Lemma joinL_idem : forall a, joinL a a = a.
Proof. intros [| |a]; cbn; auto. now rewrite N.lor_diag. Qed.
Lemma le_refl : forall a, le a a.
Proof. intros [| |a]; [now left|right; now left|]. right. right. exists a, a. auto. Qed.
Lemma le_join_l : forall a b, le a (joinL a b).
Proof.
  intros [| |a] [| |b]; cbn; try (now left); try (right; now left); try apply le_refl.
  right. right. exists a, (N.lor a b). split; [reflexivity|]. split; [reflexivity|]. intros i H. now rewrite N.lor_spec, H.
Qed.
Lemma le_join_r : forall a b, le b (joinL a b).
Proof. intros. rewrite joinL_comm. apply le_join_l. Qed.
Lemma le_trans : forall a b c, le a b -> le b c -> le a c.
Proof.
  intros a b c [-> | [-> | [u [v [-> [-> H]]]]]].
  - now left.
  - intros [H|[H|[u [v [H _]]]]]; try discriminate. right. now left.
  - intros [H2|[-> | [u' [v' [H2 [-> H3]]]]]]; [discriminate|right; now left|]. injection H2 as <-.
    right. right. exists u, v'. auto.
Qed.
Lemma join_least : forall a b c, le a c -> le b c -> le (joinL a b) c.
Proof.
  intros a b c [-> | [-> | [u [v [-> [-> H]]]]]].
  - cbn. destruct b; auto.
  - intros _. right. now left.
  - intros [-> | [H2|[u' [v' [-> [H2 H3]]]]]]; [|discriminate|].
    + cbn. right. right. exists u, v. auto.
    + injection H2 as <-. cbn. right. right. exists (N.lor u u'), v. split; [reflexivity|]. split; [reflexivity|].
      intros i. rewrite N.lor_spec. intro Q. apply orb_true_iff in Q. destruct Q as [Q|Q]; auto.
Qed.

Lemma extend_spec : forall f g, exists h, extend f g = Some h /\
  (forall x, le (apply g (apply f x)) (apply h x)) /\ (f <> AllTop -> forall x, apply h x = apply g (apply f x)).
Proof.
  intros f g. destruct f, g; eexists; (split; [reflexivity|]); split; intros; cbn [apply];
    try apply le_refl; try reflexivity; try (now elim H);
    try (rewrite joinL_assoc; first [apply le_refl|reflexivity]).
  - change (joinL Top d) with d. apply le_join_r.
  - destruct d; apply le_refl.
  - now destruct d.
Qed.
Lemma efEqb_eq : forall f g, efEqb f g = true -> f = g.
Proof. intros [| | |r|d] [| | |r'|d']; cbn; intro H; try discriminate; auto; apply eqb_eq in H; now subst. Qed.
Definition underapprox (f g : ief) : Prop :=
  (f = Id /\ (g = AllTop \/ exists r, g = Kill r)) \/ (g = Id /\ exists r, f = Kill r).
Lemma ub_join : forall f g h, (forall x, apply h x = joinL (apply f x) (apply g x)) -> upperBound h f g.
Proof. intros f g h H x. rewrite H. split; [apply le_join_l|apply le_join_r]. Qed.
Lemma combine_spec : forall f g, exists h, combine f g = Some h /\ (~ underapprox f g -> upperBound h f g).
Proof.
  intros f g.
  assert (B : forall a b, upperBound AllBottom a b) by (intros a b x; split; right; now left).
  assert (T1 : forall a, upperBound a AllTop a) by (intros a x; split; [now left|apply le_refl]).
  assert (T2 : forall a, upperBound a a AllTop) by (intros a x; split; [apply le_refl|now left]).
  assert (D : forall a, upperBound a a a) by (intros a x; split; apply le_refl).
  assert (A1 : forall d, upperBound (Add d) Id (Add d)).
  { intros d x. split; [cbn [apply]; apply le_join_l|apply le_refl]. }
  assert (A2 : forall d, upperBound (Add d) (Add d) Id).
  { intros d x. split; [apply le_refl|cbn [apply]; apply le_join_l]. }
  destruct f as [| | |r|d], g as [| | |r'|d'];
    try (eexists; split; [reflexivity|]; intro U;
         first [ elim U; left; split; [reflexivity|]; first [now left|right; eexists; reflexivity]
               | elim U; right; split; [reflexivity|]; eexists; reflexivity
               | apply B | apply T1 | apply T2 | apply D | apply A1 | apply A2 ]).
  - unfold combine, defaultJoin. destruct (efEqb (Kill r') (Kill r)) eqn:E.
    + apply efEqb_eq in E. rewrite E. eexists. split; [reflexivity|]. intros _. apply D.
    + eexists. split; [reflexivity|]. intros _. apply ub_join. reflexivity.
  - eexists. split; [reflexivity|]. intros _ x. cbn [apply]. split.
    + eapply le_trans; [apply (le_join_l r d')|apply le_join_r].
    + rewrite (joinL_comm r d'), <- joinL_assoc. apply le_join_l.
  - eexists. split; [reflexivity|]. intros _ x. cbn [apply]. split.
    + rewrite <- joinL_assoc. apply le_join_l.
    + eapply le_trans; [apply (le_join_r d r')|apply le_join_r].
  - unfold combine, defaultJoin. destruct (efEqb (Add d') (Add d)) eqn:E.
    + apply efEqb_eq in E. rewrite E. eexists. split; [reflexivity|]. intros _. apply D.
    + eexists. split; [reflexivity|]. intros _. apply ub_join. intro x. cbn [apply].
      rewrite (joinL_comm x d), joinL_assoc. rewrite <- (joinL_assoc x x d'), joinL_idem.
      rewrite <- (joinL_assoc d x d'), (joinL_comm d x), joinL_assoc. reflexivity.
Qed.

(** ** stores *)
Lemma mem_In : forall (x : nat) (l : list nat), mem x l = true <-> In x l.
Proof. intros x l. unfold mem. destruct (in_dec eq_dec x l); split; auto; discriminate. Qed.
Lemma storeEdge_total : forall val ptr cd c pts syn u src dst, (cd = true -> c = true) ->
  In dst (storeFlow val ptr cd pts syn src) -> exists f, storeEdge val ptr c pts syn u src dst = Some f.
Proof.
  intros val ptr cd c pts syn u src dst Hc H. unfold storeFlow in H.
  destruct (if syn then src =? ptr else (src =? ptr) || mem src pts); [destruct H|].
  unfold storeEdge. destruct (dst =? zero) eqn:Z; [eauto|].
  destruct (((src =? val) || ((src =? zero) && c)) && ((dst =? ptr) || mem dst pts)) eqn:E; [eauto|].
  destruct (syn && _); [eauto|]. destruct (negb syn && _); [eauto|].
  destruct (src =? dst) eqn:Q; [eauto|]. exfalso.
  apply Nat.eqb_neq in Q. destruct H as [H|H]; [elim (Q H)|].
  assert (D : forall dd, In dd (if syn then [ptr] else ptr :: pts) -> (dd =? ptr) || mem dd pts = true).
  { intros dd Hd. apply orb_true_iff. destruct syn.
    - destruct Hd as [->|[]]. left. apply Nat.eqb_refl.
    - destruct Hd as [->|Hd]; [left; apply Nat.eqb_refl|right; now apply mem_In]. }
  apply in_app_or in H. destruct H as [H|H].
  - destruct (src =? val) eqn:V; [|destruct H]. rewrite (D _ H) in E. discriminate.
  - destruct (cd && (src =? zero)) eqn:V; [|destruct H]. apply andb_true_iff in V. destruct V as [V1 V2].
    rewrite (Hc V1), V2, (D _ H) in E. rewrite orb_true_r in E. discriminate.
Qed.
(** what reaches a memory location after the store *)
Lemma store_labels : forall val ptr cd c pts u src dst x f, (cd = true -> c = true) -> val <> zero -> dst <> zero ->
  ~ In val (ptr :: pts) ->
  (dst = ptr \/ In dst pts) ->
  In dst (storeFlow val ptr cd pts false src) -> storeEdge val ptr c pts false u src dst = Some f ->
  (src = val /\ apply f x = joinL x u) \/ (src = zero /\ cd = true /\ apply f x = u).
Proof.
  intros val ptr cd c pts u src dst x f Hc Nv Nd NP Hd H E. unfold storeFlow in H.
  destruct ((src =? ptr) || mem src pts) eqn:K; [destruct H|].
  apply orb_false_iff in K. destruct K as [K1 K2]. apply Nat.eqb_neq in K1.
  assert (K3 : ~ In src pts) by (rewrite <- mem_In, K2; discriminate).
  assert (Dm : (dst =? ptr) || mem dst pts = true).
  { apply orb_true_iff. destruct Hd as [->|Hd]; [left; apply Nat.eqb_refl|right; now apply mem_In]. }
  unfold storeEdge in E. assert (Z : dst =? zero = false) by now apply Nat.eqb_neq. rewrite Z, Dm in E.
  rewrite andb_true_r in E.
  destruct H as [H|H]; [subst dst; destruct Hd as [->|Hd]; [now elim K1|elim (K3 Hd)]|].
  apply in_app_or in H. destruct H as [H|H].
  - destruct (src =? val) eqn:V; [|destruct H]. apply Nat.eqb_eq in V. subst src. cbn [orb] in E.
    injection E as <-. assert (Q : val =? zero = false) by now apply Nat.eqb_neq. rewrite Q. left. auto.
  - destruct (cd && (src =? zero)) eqn:V; [|destruct H]. apply andb_true_iff in V. destruct V as [V1 V2].
    rewrite (Hc V1), V2 in E. cbn [andb] in E. rewrite orb_true_r in E. injection E as <-.
    right. apply Nat.eqb_eq in V2. auto.
Qed.

(** ** fields *)
Lemma firstn_removelast : forall A (l : list A) k, length l = S k -> removelast l = firstn k l.
Proof. intros A l k H. rewrite removelast_firstn_len, H. reflexivity. Qed.
Lemma rev_tl : forall A (l : list A), rev (tl l) = removelast (rev l).
Proof. intros A [|a l]; auto. cbn [tl rev]. now rewrite removelast_last. Qed.
Lemma push_spec : forall A k (r p fd : list A), 1 <= k -> rev fd = firstn k (rev p) ->
  rev (fold_left (pushField k) r fd) = firstn k (rev (p ++ r)).
Proof.
  intros A k. induction r as [|g r IH]; intros p fd K H; cbn [fold_left].
  - now rewrite app_nil_r.
  - replace (p ++ g :: r) with ((p ++ [g]) ++ r) by now rewrite <- app_assoc.
    apply IH; auto. unfold pushField. rewrite !rev_app_distr. cbn [rev app].
    assert (L : length fd = length (firstn k (rev p))) by now rewrite <- H, rev_length.
    destruct k as [|k]; [lia|]. cbn [firstn]. f_equal.
    rewrite firstn_length in L.
    destruct (S k <=? length fd) eqn:E.
    + apply Nat.leb_le in E. rewrite rev_tl, H. rewrite (firstn_removelast _ _ k).
      * rewrite firstn_firstn. f_equal. lia.
      * rewrite firstn_length. lia.
    + apply Nat.leb_gt in E. rewrite H. rewrite !firstn_all2 by lia. reflexivity.
Qed.
Lemma createFields_spec : forall A k (chain : list A), 1 <= k -> createFields k chain = firstn k (rev chain).
Proof.
  intros A k [|g r] K; [now destruct k|]. unfold createFields.
  destruct (k =? 0) eqn:E; [apply Nat.eqb_eq in E; lia|].
  change (g :: r) with ([g] ++ r). apply push_spec; auto. destruct k; [lia|]. cbn. now rewrite firstn_nil.
Qed.
