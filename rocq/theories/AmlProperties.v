(** C56: abstract memory locations stand for the run time pointers they are
    created for, as far as this holds. *)
From Coq Require Import List Bool Arith ZArith Lia.
From Verif Require Import Assoc AmlModel AmlSpec AmlProofs.
Import ListNotations.
Local Open Scope Z_scope.

(** ** Factories *)
(** No assertion fails, and there is always a location; its offsets and its
    lifetime stay within the bound; no location is lost. *)
Theorem C56_factory_total bound f r : (1 <= bound)%nat -> grown bound f -> legal f r ->
  exists f' a, serve bound f r = Some (f', a) /\ known f' a /\
    (length (offsets a) + lifetime a <= bound)%nat /\ incl (pool f) (pool f').
Proof.
  intros B G L. destruct (serve_ok bound f r B (grown_invariant _ _ B G) L) as (f' & a & E & (J & K & I) & _).
  exists f', a. repeat split; auto. apply (known_sound _ _ _ J K).
Qed.
Print Assumptions C56_factory_total.

(** One object per location: the same base and offsets, both exact or both
    over-approximations, are the same object. *)
Theorem C56_one_object bound f a b : (1 <= bound)%nat -> grown bound f -> In a (pool f) -> In b (pool f) ->
  base a = base b -> offsets a = offsets b -> (lifetime a = 0%nat <-> lifetime b = 0%nat) -> a = b.
Proof.
  intros B G I I' E1 E2 E3. eapply unique_key; eauto; [apply (grown_invariant _ _ B G)|].
  unfold profileOf. rewrite E1, E2. apply zero_iff in E3. now rewrite E3.
Qed.
Print Assumptions C56_one_object.

Lemma later_grown bound f g : grown bound f -> later bound f g -> grown bound g.
Proof. intros G L. induction L as [|f g r h a L IH Le E]; auto. exact (Grow _ _ _ _ _ (IH G) Le E). Qed.

Lemma later_incl bound f g : (1 <= bound)%nat -> grown bound f -> later bound f g -> incl (pool f) (pool g).
Proof.
  intros B G L. induction L as [|f g r h a L IH Le E]; [apply incl_refl|].
  pose proof (later_grown _ _ _ G L) as G'.
  destruct (serve_ok bound g r B (grown_invariant _ _ B G') Le) as (h' & a' & E' & (_ & _ & I) & _).
  assert (h' = h) by congruence. subst. eapply incl_tran; eauto.
Qed.

Lemma create_shaped bound f v f' a : (1 <= bound)%nat -> grown bound f -> create bound f v = Some (f', a) ->
  grown bound f' /\ In a (pool f') /\ shaped bound v a.
Proof.
  intros B G E. destruct (create_ok bound f v B (grown_invariant _ _ B G)) as (f1 & a1 & E1 & S & I & Sh).
  rewrite E in E1. injection E1 as <- <-. repeat split; try apply Sh; auto.
  eapply Grow with (r := Create v); eauto. exact Logic.I.
Qed.

(** ** Creation *)
(** The location of a pointer computed with constant offsets covers its
    accesses; it is an over-approximation iff there are as many as the bound. *)
Theorem C56_create_covers bound f v f' a index ps : (1 <= bound)%nat -> grown bound f ->
  constant v -> create bound f v = Some (f', a) -> accesses index v ps ->
  base a = root v /\ covers a ps /\ (lifetime a = 0%nat <-> bound <= length ps)%nat.
Proof.
  intros B G C E A. destruct (create_shaped _ _ _ _ _ B G E) as (_ & _ & Sb & So & Sl).
  apply accesses_path in A. rewrite (constant_path index zeroIndex v C) in A.
  unfold shape in So, Sl. rewrite (proj1 (stem_constant v) C) in So, Sl. cbn [fst snd] in So, Sl.
  rewrite <- A in So, Sl. rewrite Nat.leb_le in Sl. refine (conj Sb (conj _ Sl)).
  destruct (Nat.eq_dec (lifetime a) 0) as [Z|Z].
  - apply covers_zero; auto. rewrite So. apply isPrefix_firstn.
  - apply covers_pos; auto. rewrite So. apply firstn_all2.
    destruct (Nat.le_gt_cases bound (length ps)); [tauto|lia].
Qed.
Print Assumptions C56_create_covers.

(** A location which is not an over-approximation stands for the very pointer,
    in every memory. *)
Theorem C56_create_stands_for bound f v f' a : (1 <= bound)%nat -> grown bound f ->
  create bound f v = Some (f', a) -> lifetime a <> 0%nat ->
  forall m env index, standsFor m env a (run m env index v).
Proof.
  intros B G E L m env index. destruct (create_shaped _ _ _ _ _ B G E) as (_ & _ & Sb & So & Sl).
  apply follows_follow. rewrite Sb. rewrite <- follow_path. f_equal.
  unfold shape in So, Sl. destruct (stem v) eqn:St; cbn [fst snd] in So, Sl; [tauto|].
  rewrite Nat.leb_le in Sl. rewrite So.
  rewrite (constant_path index zeroIndex v (proj2 (stem_constant v) St)).
  symmetry. apply firstn_all2. lia.
Qed.
Print Assumptions C56_create_stands_for.

(** Two pointers with the same such location are equal in every execution. *)
Theorem C56_same_location_same_pointer bound f v w f1 f2 f3 a : (1 <= bound)%nat -> grown bound f ->
  create bound f v = Some (f1, a) -> later bound f1 f2 -> create bound f2 w = Some (f3, a) ->
  lifetime a <> 0%nat -> forall m env index, run m env index v = run m env index w.
Proof.
  intros B G E L E' Z m env index.
  pose proof (C56_create_stands_for _ _ _ _ _ B G E Z m env index) as S1.
  destruct (create_shaped _ _ _ _ _ B G E) as (G1 & _).
  pose proof (C56_create_stands_for _ _ _ _ _ B (later_grown _ _ _ G1 L) E' Z m env index) as S2.
  apply follows_follow in S1, S2. congruence.
Qed.
Print Assumptions C56_same_location_same_pointer.

(** Canonical: the same accesses from the same root give the same object,
    whatever has been asked for in between. *)
Theorem C56_create_canonical bound f v w f1 f2 f3 a b index ps : (1 <= bound)%nat -> grown bound f ->
  constant v -> constant w -> root v = root w -> accesses index v ps -> accesses index w ps ->
  create bound f v = Some (f1, a) -> later bound f1 f2 -> create bound f2 w = Some (f3, b) -> a = b.
Proof.
  intros B G C C' R A A' E L E'.
  destruct (create_shaped _ _ _ _ _ B G E) as (G1 & I1 & Sb & So & Sl).
  destruct (create_shaped _ _ _ _ _ B (later_grown _ _ _ G1 L) E') as (G3 & I3 & Tb & To & Tl).
  assert (I1' : In a (pool f3)).
  { assert (L' : later bound f1 f3) by (eapply Later with (r := Create w); eauto; exact Logic.I).
    exact (later_incl _ _ _ B G1 L' _ I1). }
  apply accesses_path in A, A'.
  rewrite (constant_path index zeroIndex v C) in A. rewrite (constant_path index zeroIndex w C') in A'.
  assert (Sh : shape bound v = shape bound w).
  { unfold shape. rewrite (proj1 (stem_constant v) C), (proj1 (stem_constant w) C').
    rewrite <- A, <- A'. reflexivity. }
  apply (C56_one_object bound f3); auto; try congruence. rewrite Sl, Tl, Sh. tauto.
Qed.
Print Assumptions C56_create_canonical.

(** With a variable offset only the accesses before it are accounted for. *)
Theorem C56_create_covers_partial bound f v f' a index ps : (1 <= bound)%nat -> grown bound f ->
  create bound f v = Some (f', a) -> accesses index v ps ->
  base a = root v /\ isPrefix (removelast (offsets a)) ps /\ (~ constant v -> lifetime a = 0%nat).
Proof.
  intros B G E A. destruct (create_shaped _ _ _ _ _ B G E) as (_ & _ & Sb & So & Sl).
  apply accesses_path in A. refine (conj Sb _).
  unfold shape in So, Sl. destruct (stem v) as [q|] eqn:St; cbn [fst snd] in So, Sl.
  - split; [|tauto]. rewrite So.
    eapply isPrefix_trans; [apply isPrefix_removelast_mono, isPrefix_firstn|].
    rewrite (constant_path zeroIndex index q (proj2 (stem_constant q) (stem_stem _ _ St))).
    eapply isPrefix_trans; [apply (stem_path index v q St)|].
    subst ps. apply isPrefix_removelast.
  - pose proof (proj2 (stem_constant v) St) as C. split; [|tauto].
    rewrite So, A, (constant_path index zeroIndex v C).
    eapply isPrefix_trans; [apply isPrefix_removelast|]. apply isPrefix_firstn.
Qed.
Print Assumptions C56_create_covers_partial.

(** ** Derived locations *)
Lemma served bound f f' a r (P : location -> Prop) : done bound f r P -> r = Some (f', a) -> P a.
Proof. intros (g & b & E & _ & H) E'. rewrite E' in E. injection E as <- <-. exact H. Qed.

(** Adding an indirection. *)
Theorem C56_indirection_covers bound f a ind f' b ps : (1 <= bound)%nat -> grown bound f -> known f a ->
  withIndirectionOf f a ind = Some (f', b) -> covers a ps ->
  base b = base a /\ covers b (ps ++ match ind with [] => [0] | _ => ind end).
Proof.
  intros B G K E C.
  destruct (served _ _ _ _ _ _ (indirection_ok bound f a ind (grown_invariant _ _ B G) K) E) as [H1 H2]. auto.
Qed.
Print Assumptions C56_indirection_covers.

(** Adding the offset of a getelementptr; an unknown one gives a location for
    all offsets. *)
Theorem C56_offset_covers_partial bound f a gep f' b ps qs d : (1 <= bound)%nat -> grown bound f -> known f a ->
  withOffset f a gep = Some (f', b) -> lifetime a <> 0%nat -> covers a ps ->
  (gep = Some d \/ gep = None) -> shifted d ps qs -> base b = base a /\ covers b qs.
Proof.
  intros B G K E Z C D S.
  destruct (served _ _ _ _ _ _ (offset_ok bound f a gep (grown_invariant _ _ B G) K) E) as [H1 H2].
  split; auto. specialize (H2 _ Z C). destruct D as [-> | ->]; eauto.
Qed.
Print Assumptions C56_offset_covers_partial.

Theorem C56_offsets_covers_partial bound f a o os f' b ps qs : (1 <= bound)%nat -> grown bound f -> known f a ->
  withOffsets f a (o :: os) = Some (f', b) -> lifetime a <> 0%nat -> covers a ps ->
  shifted o ps qs -> base b = base a /\ covers b (qs ++ os).
Proof.
  intros B G K E Z C S.
  destruct (served _ _ _ _ _ _ (offsets_ok bound f a _ (grown_invariant _ _ B G) K) E) as [H1 H2].
  split; auto. apply (H2 _ Z C), S.
Qed.
Print Assumptions C56_offsets_covers_partial.

(** From the callee to the caller: [a] is seen from a parameter whose argument
    is [to]. *)
Theorem C56_transfer_from_covers_partial bound f a to f' b ps o os qs : (1 <= bound)%nat -> grown bound f ->
  known f a -> known f to -> withTransferFrom f a to = Some (f', b) ->
  lifetime a <> 0%nat -> lifetime to <> 0%nat ->
  covers a (o :: os) -> covers to ps -> shifted o ps qs ->
  base b = base to /\ covers b (qs ++ os).
Proof.
  intros B G K K' E Z Z' C C' S.
  destruct (served _ _ _ _ _ _ (transferFrom_ok bound f a to (grown_invariant _ _ B G) K K') E) as [H1 H2].
  split; auto. eapply H2; eauto.
Qed.
Print Assumptions C56_transfer_from_covers_partial.

(** ... and the accesses it covers lead to the same pointer: that of the
    parameter is that of the argument. *)
Theorem C56_transfer_from_pointer m env a to ps o os qs p q : covers to ps -> lifetime to <> 0%nat ->
  shifted o ps qs -> standsFor m env to p -> env a = p -> follows m (env a) (o :: os) q ->
  follows m (env (base to)) (qs ++ os) q.
Proof.
  intros C Z S F E Q. apply covers_pos in C; auto. subst ps.
  apply shifted_inv in S as [Ne ->]. apply follows_follow in F, Q. apply follows_follow.
  rewrite follow_addBack_app by assumption. rewrite <- F, <- E. exact Q.
Qed.
Print Assumptions C56_transfer_from_pointer.

(** From the caller to the callee: [a] is [from] and then [o :: os].  What
    [withTransferTo] gives is right exactly in these cases. *)
Theorem C56_transfer_to_covers_iff bound f a from to f' b fs o os qs : (1 <= bound)%nat -> grown bound f ->
  known f a -> known f from -> withTransferTo f a from to = Some (f', b) ->
  lifetime a <> 0%nat -> lifetime from <> 0%nat ->
  covers from fs -> shifted o fs qs -> covers a (qs ++ os) ->
  base b = to /\ (offsets b = o :: os <-> (os = [] /\ o = 0) \/ (os <> [] /\ last fs 0 = 0 /\ last os 0 = 0)).
Proof.
  intros B G K K' E Z Z' C S C'.
  destruct (served _ _ _ _ _ _ (transferTo_ok bound f a from to B (grown_invariant _ _ B G) K K') E) as (H1 & _ & H2).
  apply covers_pos in C; auto. apply covers_pos in C'; auto.
  destruct S as [l x]. refine (conj H1 _).
  assert (Le : (length (l ++ [x]) <= length (offsets a))%nat).
  { rewrite C', !app_length. cbn [length]. lia. }
  specialize (H2 Z Z'). rewrite C in H2. specialize (H2 Le). rewrite H2, C'.
  replace (length (l ++ [x]) - 1)%nat with (length l) by (rewrite app_length; cbn; lia).
  replace ((l ++ [x + o]) ++ os) with (l ++ (x + o) :: os) by now rewrite <- app_assoc.
  rewrite skipn_app, skipn_all, Nat.sub_diag. cbn [skipn app]. rewrite last_last.
  destruct os as [|y os].
  - cbn. split.
    + intro H. injection H as <-. left. auto.
    + intros [[_ ->]|[N _]]; congruence.
  - change (removelast (x + o :: y :: os)) with (x + o :: removelast (y :: os)). cbn [app].
    destruct (exists_last (l := y :: os) ltac:(discriminate)) as (k & z & Ek). rewrite Ek.
    rewrite removelast_last, last_last. split.
    + intro H. injection H as H3 H4. apply app_inj_tail in H4 as [_ <-]. right.
      repeat split; try lia. destruct k; discriminate.
    + intros [[N _]|(_ & Hx & ->)]; [destruct k; discriminate|]. subst x. reflexivity.
Qed.
Print Assumptions C56_transfer_to_covers_iff.

(** Over-approximations on both sides stay one. *)
Theorem C56_transfer_to_overapproximates bound f a from to f' b os : (1 <= bound)%nat -> grown bound f ->
  known f a -> known f from -> withTransferTo f a from to = Some (f', b) ->
  lifetime a = 0%nat -> lifetime from = 0%nat -> base b = to /\ covers b (0 :: os).
Proof.
  intros B G K K' E Z Z'.
  destruct (served _ _ _ _ _ _ (transferTo_ok bound f a from to B (grown_invariant _ _ B G) K K') E) as (H1 & H2 & _).
  destruct (H2 Z Z') as [O L]. split; auto. apply covers_zero; auto. rewrite O. now exists os.
Qed.
Print Assumptions C56_transfer_to_overapproximates.

(** ** Comparisons *)
Lemma equivalentOffsets_iff a b : equivalentOffsets a b = true <->
  isPrefix (offsets a) (offsets b) \/ isPrefix (offsets b) (offsets a).
Proof.
  unfold equivalentOffsets. rewrite eqb_true.
  destruct (Nat.le_ge_cases (length (offsets a)) (length (offsets b))) as [L|L].
  - rewrite Nat.min_l, firstn_all by assumption. rewrite <- isPrefix_iff. split; auto.
    intros [H|H]; auto. pose proof (isPrefix_length _ _ H) as L'.
    destruct H as [r E]. rewrite E, app_length in L. destruct r; [|cbn in L; lia].
    rewrite app_nil_r in E. rewrite E. apply isPrefix_refl.
  - rewrite Nat.min_r, firstn_all by assumption.
    transitivity (isPrefix (offsets b) (offsets a)).
    { rewrite isPrefix_iff. split; congruence. }
    split; auto. intros [H|H]; auto. pose proof (isPrefix_length _ _ H) as L'.
    destruct H as [r E]. rewrite E, app_length in L. destruct r; [|cbn in L; lia].
    rewrite app_nil_r in E. rewrite E. apply isPrefix_refl.
Qed.

(** Locations are equivalent iff one may lead on from the other. *)
Theorem C56_equivalent_iff a b : equivalent a b = true <->
  base a = base b /\ (isPrefix (offsets a) (offsets b) \/ isPrefix (offsets b) (offsets a)).
Proof.
  unfold equivalent. destruct (eqb (base a) (base b)) eqn:E.
  - apply eqb_eq in E. rewrite equivalentOffsets_iff. tauto.
  - apply Assoc.eqb_false in E. split; [discriminate|tauto].
Qed.
Print Assumptions C56_equivalent_iff.


Lemma prefixes_comparable (os qs ps : list Z) : isPrefix os ps -> isPrefix qs ps -> isPrefix os qs \/ isPrefix qs os.
Proof.
  intros [r E] [s E']. subst ps. revert qs s E'.
  induction os as [|o os IH]; intros qs s E; [left; now exists qs|].
  destruct qs as [|q qs]; [right; now exists (o :: os)|].
  cbn in E. injection E as <- E. destruct (IH qs s E) as [[t ->]|[t ->]]; [left|right]; now exists t.
Qed.

(** Locations covering the same accesses are equivalent. *)
Theorem C56_covering_equivalent a b ps : base a = base b -> covers a ps -> covers b ps -> equivalent a b = true.
Proof.
  intros E C C'. apply C56_equivalent_iff. split; auto.
  assert (P : forall c, covers c ps -> isPrefix (offsets c) ps).
  { intros c H. destruct (Nat.eq_dec (lifetime c) 0) as [Z|Z]; [now apply covers_zero in H|].
    apply covers_pos in H; auto. rewrite H. apply isPrefix_refl. }
  eapply prefixes_comparable; eauto.
Qed.
Print Assumptions C56_covering_equivalent.

Lemma isProperPrefixOf_iff a b : isProperPrefixOf a b = true <->
  base a = base b /\ exists o os, offsets b = offsets a ++ o :: os.
Proof.
  unfold isProperPrefixOf. destruct (eqb (base a) (base b)) eqn:E; cbn [negb].
  - apply eqb_eq in E. destruct (Nat.leb_spec (length (offsets b)) (length (offsets a))) as [L|L].
    + split; [discriminate|]. intros (_ & o & os & O). rewrite O, app_length in L. cbn in L. lia.
    + rewrite eqb_true, <- isPrefix_iff. split.
      * intros [r R]. split; auto. destruct r as [|o os]; [|eauto].
        rewrite app_nil_r in R. rewrite R in L. lia.
      * intros (_ & o & os & O). now exists (o :: os).
  - apply Assoc.eqb_false in E. split; [discriminate|tauto].
Qed.

(** Being a proper prefix is a strict order. *)
Theorem C56_prefix_strict_order : (forall a, isProperPrefixOf a a = false) /\
  (forall a b c, isProperPrefixOf a b = true -> isProperPrefixOf b c = true -> isProperPrefixOf a c = true).
Proof.
  split.
  - intro a. destruct (isProperPrefixOf a a) eqn:E; auto. apply isProperPrefixOf_iff in E as (_ & o & os & E).
    apply (f_equal (@length _)) in E. rewrite app_length in E. cbn in E. lia.
  - intros a b c H H'. apply isProperPrefixOf_iff in H as (E & o & os & O), H' as (E' & o' & os' & O').
    apply isProperPrefixOf_iff. split; [congruence|]. exists o, (os ++ o' :: os').
    rewrite O', O, <- app_assoc. reflexivity.
Qed.
Print Assumptions C56_prefix_strict_order.

(** ... what the longer one stands for is read through memory from what the
    shorter one stands for ... *)
Theorem C56_prefix_reaches m env a b p q : isProperPrefixOf a b = true -> offsets a <> [] ->
  standsFor m env a p -> standsFor m env b q ->
  exists o os, offsets b = offsets a ++ o :: os /\ follows m (m p) (o :: os) q.
Proof.
  intros H N F F'. apply isProperPrefixOf_iff in H as (E & o & os & O).
  apply follows_follow in F, F'. exists o, os. split; auto. apply follows_follow.
  rewrite F', F, O, <- E. now apply follow_append.
Qed.
Print Assumptions C56_prefix_reaches.

(** ... and an over-approximating prefix covers all the longer one covers. *)
Theorem C56_prefix_covers a b ps : isProperPrefixOf a b = true -> lifetime a = 0%nat -> covers b ps -> covers a ps.
Proof.
  intros H Z C. apply isProperPrefixOf_iff in H as (E & o & os & O). apply covers_zero; auto.
  assert (P : isPrefix (offsets b) ps).
  { destruct (Nat.eq_dec (lifetime b) 0) as [Z'|Z']; [now apply covers_zero in C|].
    apply covers_pos in C; auto. rewrite C. apply isPrefix_refl. }
  eapply isPrefix_trans; [|exact P]. now exists (o :: os).
Qed.
Print Assumptions C56_prefix_covers.

(** With pointer arithmetic in the last indirection left aside: one leads on
    from where the other is up to its last offset. *)
Lemma cut_agree (os qs : list Z) : (length os <= length qs)%nat -> (1 < length os)%nat ->
  firstn (length os - 1) os = firstn (length os - 1) qs ->
  exists l x y r, os = l ++ [x] /\ qs = l ++ y :: r.
Proof.
  intros L L1 E. destruct (exists_last (l := os)) as (l & x & ->); [intros ->; cbn in L1; lia|].
  rewrite app_length in *. cbn [length] in *. replace (length l + 1 - 1)%nat with (length l) in E by lia.
  rewrite firstn_app, firstn_all, Nat.sub_diag in E. cbn in E. rewrite app_nil_r in E.
  rewrite <- (firstn_skipn (length l) qs). rewrite <- E.
  destruct (skipn (length l) qs) as [|y r] eqn:Sk; [|now exists l, x, y, r].
  apply (f_equal (@length _)) in Sk. rewrite skipn_length in Sk. cbn in Sk. lia.
Qed.

Lemma cut_agree_rev (l r : list Z) x y n : n = length (l ++ [x]) ->
  firstn (n - 1) (l ++ [x]) = firstn (n - 1) (l ++ y :: r).
Proof.
  intros ->. rewrite app_length. cbn [length]. replace (length l + 1 - 1)%nat with (length l) by lia.
  rewrite !firstn_app, firstn_all, Nat.sub_diag. reflexivity.
Qed.

Theorem C56_except_arithmetics_iff a b : offsets a <> [] -> offsets b <> [] ->
  equivalentExceptPointerArithmetics a b 1 = true <->
  base a = base b /\ exists l x y r,
    (offsets a = l ++ [x] /\ offsets b = l ++ y :: r) \/ (offsets b = l ++ [x] /\ offsets a = l ++ y :: r).
Proof.
  intros Na Nb. unfold equivalentExceptPointerArithmetics. destruct (eqb (base a) (base b)) eqn:E.
  2:{ apply Assoc.eqb_false in E. split; [discriminate|tauto]. }
  apply eqb_eq in E. destruct (offsets a) as [|x os]; [congruence|]. destruct (offsets b) as [|y qs]; [congruence|].
  clear Na Nb. destruct (Nat.leb_spec (Nat.min (length (x :: os)) (length (y :: qs))) 1) as [L|L].
  - split; auto. intros _. split; auto. exists []. destruct os as [|x' os]; [exists x, y, qs; now left|].
    destruct qs as [|y' qs]; [exists y, x, (x' :: os); now right|]. cbn in L. lia.
  - rewrite eqb_true. destruct (Nat.le_ge_cases (length (x :: os)) (length (y :: qs))) as [Le|Le].
    + rewrite Nat.min_l in * by assumption. split.
      * intro F. split; auto. destruct (cut_agree _ _ Le L F) as (l & u & v & r & H). exists l, u, v, r. now left.
      * intros (_ & l & u & v & r & [[-> ->]|[E1 E2]]); [now apply cut_agree_rev|].
        rewrite E1, E2 in *. rewrite !app_length in *. cbn [length] in *.
        assert (r = []) by (destruct r; [auto|cbn in Le; lia]). subst r.
        symmetry. apply cut_agree_rev. now rewrite app_length.
    + rewrite Nat.min_r in * by assumption. split.
      * intro F. split; auto. symmetry in F. destruct (cut_agree _ _ Le L F) as (l & u & v & r & H). exists l, u, v, r. now right.
      * intros (_ & l & u & v & r & [[E1 E2]|[-> ->]]); [|symmetry; now apply cut_agree_rev].
        rewrite E1, E2 in *. rewrite !app_length in *. cbn [length] in *.
        assert (r = []) by (destruct r; [auto|cbn in Le; lia]). subst r.
        apply cut_agree_rev. now rewrite app_length.
Qed.
Print Assumptions C56_except_arithmetics_iff.

(** The prefix test with alias information is right if that is. *)
Theorem C56_alias_prefix_reaches pt m env a b p q :
  (forall x y, pt x y = true -> env x = env y) ->
  isProperPrefixOfAlias pt a b = true -> offsets a <> [] -> standsFor m env a p -> standsFor m env b q ->
  exists o os, offsets b = offsets a ++ o :: os /\ follows m (m p) (o :: os) q.
Proof.
  intros S H N F F'. unfold isProperPrefixOfAlias in H.
  destruct (negb (eqb (base a) (base b)) && negb (pt (base a) (base b))) eqn:E; [discriminate|].
  assert (Eb : env (base a) = env (base b)).
  { destruct (eqb (base a) (base b)) eqn:E1; [apply eqb_eq in E1; now rewrite E1|].
    cbn [negb andb] in E. apply negb_false_iff in E. auto. }
  destruct (Nat.leb_spec (length (offsets b)) (length (offsets a))) as [L|L]; [discriminate|].
  apply eqb_eq, isPrefix_iff in H as [r R]. destruct r as [|o os]; [rewrite app_nil_r in R; rewrite R in L; lia|].
  exists o, os. split; auto. apply follows_follow in F, F'. apply follows_follow.
  rewrite F', F, R, Eb. now apply follow_append.
Qed.
Print Assumptions C56_alias_prefix_reaches.

Example compare_alias_example :
  isProperPrefixOfAlias (fun _ _ => true) (mkLoc (Base 1 true) [4] 3) (mkLoc (Base 2 true) [4; 0] 2) = true /\
  equivalentExceptPointerArithmetics (mkLoc (Base 1 true) [0; 4] 2) (mkLoc (Base 1 true) [0; 8; 0] 1) 1 = true.
Proof. split; reflexivity. Qed.

(** The difference of a location and a prefix of it starts with the prefix'
    last offset. *)
Theorem C56_minus_prefix a b : isPrefix (offsets b) (offsets a) -> offsets b <> [] ->
  offsets a = removelast (offsets b) ++ minus a b /\ minus b a = minus a b.
Proof.
  intros [r E] N. unfold minus. rewrite E, app_length.
  destruct (exists_last N) as (l & x & El). rewrite El in *.
  rewrite removelast_last. rewrite app_length. cbn [length].
  replace (Nat.max 1 (length l + 1) - 1)%nat with (length l) by lia.
  assert (S : skipn (length l) ((l ++ [x]) ++ r) = x :: r).
  { rewrite <- app_assoc, skipn_app, skipn_all, Nat.sub_diag. reflexivity. }
  destruct (Nat.ltb_spec (length l + 1) (length l + 1 + length r)) as [L|L].
  - rewrite S. split; [now rewrite <- app_assoc|].
    destruct (Nat.ltb_spec (length l + 1 + length r) (length l + 1)); [lia|reflexivity].
  - destruct r; [|cbn in L; lia]. cbn [length]. rewrite Nat.add_0_r.
    replace (Nat.max 1 (length l + 1) - 1)%nat with (length l) by lia.
    rewrite Nat.ltb_irrefl. rewrite app_nil_r in *. rewrite S. split; auto.
Qed.
Print Assumptions C56_minus_prefix.

(** Must-alias with as many offsets on both sides is right if the alias
    information is. *)
Theorem C56_must_alias_partial pt fn m env a b p q :
  (forall x y, pt x y = true -> env x = env y) ->
  mustAlias pt fn a b = true -> length (offsets a) = length (offsets b) ->
  standsFor m env a p -> standsFor m env b q -> p = q.
Proof.
  intros S H L F F'. unfold mustAlias in H.
  destruct (negb (eqb (base a) (base b)) && _) eqn:E; [discriminate|].
  assert (Eb : env (base a) = env (base b)).
  { destruct (eqb (base a) (base b)) eqn:E1; [apply eqb_eq in E1; now rewrite E1|].
    cbn [negb andb] in E. apply orb_false_iff in E as [_ E]. apply negb_false_iff in E. auto. }
  apply equivalentOffsets_iff in H.
  assert (Eo : offsets a = offsets b).
  { destruct H as [[r R]|[r R]]; (assert (r = []) by (apply (f_equal (@length _)) in R; rewrite app_length in R; destruct r; [auto|cbn in R; lia]); subst r; rewrite app_nil_r in R; congruence). }
  apply follows_follow in F, F'. congruence.
Qed.
Print Assumptions C56_must_alias_partial.

(** ** Stores *)
Lemma stored_fact bound f source val mem f' b vs o os qs ms : (1 <= bound)%nat -> grown bound f ->
  known f mem -> storedFact f source val mem = Some (f', b) ->
  lifetime source <> 0%nat -> lifetime val <> 0%nat ->
  covers val vs -> shifted o vs qs -> covers source (qs ++ os) -> covers mem ms ->
  base b = base mem /\ covers b (ms ++ match os with [] => [last vs 0] | _ => last vs 0 + o :: os end).
Proof.
  intros B G K2 E Z Z1 C S C' Cm. unfold storedFact in E.
  apply covers_pos in C; auto. apply covers_pos in C'; auto. destruct S as [l x].
  destruct (C56_indirection_covers _ _ _ _ _ _ _ B G K2 E Cm) as [H1 H2]. split; auto.
  replace (minus source val) with (match os with [] => [x] | _ => x + o :: os end) in H2.
  { rewrite last_last. destruct os; exact H2. }
  unfold minus. rewrite C', C, !app_length. cbn [length].
  replace (Nat.max 1 (length l + 1 + length os) - 1)%nat with (length l + length os)%nat by lia.
  replace (Nat.max 1 (length l + 1) - 1)%nat with (length l) by lia.
  destruct os as [|y os]; cbn [length].
  - rewrite Nat.add_0_r, Nat.ltb_irrefl. rewrite Nat.add_0_r, skipn_app, skipn_all, Nat.sub_diag. reflexivity.
  - destruct (Nat.ltb_spec (length l + 1) (length l + 1 + S (length os))) as [L|L]; [|lia].
    rewrite <- app_assoc, skipn_app, skipn_all, Nat.sub_diag. reflexivity.
Qed.

(** The fact generated at a store of [val] to [mem] from a tainted [source],
    reached from [val] by [o :: os]: the same is reached after the store from
    what is in memory at [mem], if [val] has last offset 0. *)
Theorem C56_stored_fact_partial bound f source val mem f' b vs o os qs ms : (1 <= bound)%nat -> grown bound f ->
  known f mem -> storedFact f source val mem = Some (f', b) ->
  lifetime source <> 0%nat -> lifetime val <> 0%nat ->
  covers val vs -> shifted o vs qs -> covers source (qs ++ os) -> covers mem ms ->
  last vs 0 = 0 -> (os = [] -> o = 0) ->
  base b = base mem /\ covers b (ms ++ o :: os) /\
  (forall m env p x y, ms <> [] -> follows m (env (base mem)) ms p -> m p = x -> follows m x (o :: os) y ->
     follows m (env (base b)) (ms ++ o :: os) y).
Proof.
  intros B G K2 E Z Z1 C S C' Cm L0 O0.
  destruct (stored_fact _ _ _ _ _ _ _ _ _ _ _ _ B G K2 E Z Z1 C S C' Cm) as [H1 H2].
  refine (conj H1 (conj _ _)).
  - rewrite L0 in H2. destruct os; [now rewrite O0|]. exact H2.
  - intros m env p x y N F X Y. apply follows_follow in F, Y. apply follows_follow.
    rewrite H1, follow_append by assumption. now rewrite <- F, X.
Qed.
Print Assumptions C56_stored_fact_partial.

(** ** The memory pool *)
Theorem C56_pool_partial capacity most m os : most + minPointers <= perBlock -> allocated capacity most m os ->
  (forall o, In o os -> within (blocks m) o) /\ ForallOrdPairs apart os.
Proof.
  intros M A. assert (R : arena m os).
  { induction A as [|m os n m' o A IH L E]; [apply arena_new|]. eapply arena_step; eauto. lia. }
  split; apply R.
Qed.
Print Assumptions C56_pool_partial.

(** An object larger than a block is not within it: 6142 offsets suffice. *)
Theorem C56_pool_refuted : exists capacity m o, allocated capacity 6142 m [o] /\ ~ within (blocks m) o.
Proof.
  exists 0, (mkAlloc [6144] 6145 6144 0), (0%nat, 0, 6145). split.
  - eapply Another with (n := Z.to_nat 6142); [constructor| |].
    + rewrite Z2Nat.id by lia. lia.
    + unfold allocate. rewrite Z2Nat.id by lia. reflexivity.
  - intros (cap & E & H). cbn in E. injection E as <-. lia.
Qed.
Print Assumptions C56_pool_refuted.

(** Blocks are not destroyed with the size they have been created with. *)
Theorem C56_destroyed_size_refuted : exists capacity m os, allocated capacity 1 m os /\ destroyed m <> blocks m.
Proof. exists 2048, (newAllocator 2048), []. split; [constructor|]. discriminate. Qed.
Print Assumptions C56_destroyed_size_refuted.

(** ** Histories to compute with *)
#[local] Instance EqDec_location : EqDec location.
Proof. intros x y; change ({x = y} + {x <> y}); repeat decide equality. Defined.

Definition knownb (f : factory) (a : location) : bool :=
  existsb (eqb a) (pool f) || eqb a zeroLocation.
Definition legalb (f : factory) (r : request) : bool :=
  match r with
  | Create _ => true
  | Indirection a _ | Offset a _ | Offsets a _ => knownb f a
  | TransferTo a from _ => knownb f a && knownb f from
  | TransferFrom a to => knownb f a && knownb f to
  end.
Fixpoint serveAll (bound : nat) (f : factory) (rs : list request) : option factory :=
  match rs with
  | [] => Some f
  | r :: rest =>
    if legalb f r then match serve bound f r with Some (f', _) => serveAll bound f' rest | None => None end
    else None
  end.

Lemma knownb_ok f a : knownb f a = true -> known f a.
Proof.
  unfold knownb. intro H. apply orb_true_iff in H as [H|H]; [|right; now apply eqb_eq].
  apply existsb_exists in H as (b & I & E). apply eqb_eq in E. subst. now left.
Qed.
Lemma legalb_ok f r : legalb f r = true -> legal f r.
Proof.
  destruct r; cbn; intro H; auto using knownb_ok; apply andb_true_iff in H as [H H']; auto using knownb_ok.
Qed.
Lemma serveAll_grown bound f rs f' : grown bound f -> serveAll bound f rs = Some f' -> grown bound f'.
Proof.
  revert f. induction rs as [|r rs IH]; intros f G E; cbn in E; [congruence|].
  destruct (legalb f r) eqn:L; [|discriminate].
  destruct (serve bound f r) as [[g a]|] eqn:S; [|discriminate].
  apply (IH g); auto. exact (Grow _ _ _ _ _ G (legalb_ok _ _ L) S).
Qed.
Lemma start bound rs f : serveAll bound emptyFactory rs = Some f -> grown bound f.
Proof. apply serveAll_grown. constructor. Qed.

Definition B : value := Base 1 true.     (* alloca *)
Definition P : value := Base 2 true.     (* another *)
Definition arg : value := Base 3 true.   (* parameter of a callee *)

(** An example meeting the hypotheses of the theorems above: the location of
    a field of an object reached through memory, in a factory with others. *)
Definition field : value := Gep 7 (Cast 6 (Load 5 B)) (Some 8).
Definition history : list request :=
  [Create B; Create P; Create field; Offset (mkLoc B [0] 3) (Some 4); Indirection (mkLoc B [4] 3) [];
   Create arg; TransferFrom (mkLoc arg [0] 3) (mkLoc B [0; 8] 2)].
Definition after : factory := Eval vm_compute in
  match serveAll 4 emptyFactory history with Some f => f | None => emptyFactory end.

Example after_grown : grown 4 after.
Proof. apply (start 4 history). reflexivity. Qed.

Example field_location : exists f, create 4 after field = Some (f, mkLoc B [0; 8] 2) /\
  constant field /\ accesses (fun _ => 0) field [0; 8] /\ In (mkLoc B [4; 0] 2) (pool after).
Proof.
  exists after. refine (conj eq_refl (conj _ (conj _ _))).
  - cbn. split; [discriminate|exact Logic.I].
  - apply accesses_path. reflexivity.
  - cbn. tauto.
Qed.

(** the derived locations in it: a parameter seen as the field, and back *)
Example transfers : exists f f' f'',
  withTransferTo after (mkLoc B [0; 8] 2) (mkLoc B [0; 8] 2) arg = Some (f, mkLoc arg [0] 3) /\
  withTransferFrom after (mkLoc arg [0] 3) (mkLoc B [0; 8] 2) = Some (f', mkLoc B [0; 8] 2) /\
  withOffsets after (mkLoc B [4] 3) [4; 1] = Some (f'', mkLoc B [8; 1] 2) /\
  known after (mkLoc B [0; 8] 2) /\ known after (mkLoc arg [0] 3).
Proof. do 3 eexists. repeat split; try reflexivity; left; cbn; tauto. Qed.

(** the store of a pointer to memory, with a taint on what it points to *)
Example store_example : exists f, storedFact after (mkLoc B [4; 0] 2) (mkLoc B [4; 0] 2) (mkLoc P [0] 3) =
  Some (f, mkLoc P [0; 0] 2).
Proof. eexists. reflexivity. Qed.

Example compare_example : isProperPrefixOf (mkLoc B [4] 3) (mkLoc B [4; 0] 2) = true /\
  mustAlias (fun _ _ => false) (fun _ => None) (mkLoc B [4] 3) (mkLoc B [4] 3) = true.
Proof. split; reflexivity. Qed.

Example pool_example : exists m os, allocated 0 5 m os /\ length os = 2%nat /\ 5 + minPointers <= perBlock.
Proof.
  do 2 eexists. refine (conj (Another _ _ _ _ 5 _ _ (Another _ _ _ _ 2 _ _ (NoneYet _ _) _ eq_refl) _ eq_refl) (conj eq_refl _));
    unfold perBlock, minPointers; lia.
Qed.

(** ** What does not hold *)
(** A variable offset: the location claims to cover more than its accesses but
    does not cover those; the pointers below are equal when the index is 4, and
    their locations are not equivalent. *)
Theorem C56_create_variable_refuted : exists bound f v w f1 f2 a b index ps, (1 <= bound)%nat /\ grown bound f /\
  create bound f v = Some (f1, a) /\ create bound f1 w = Some (f2, b) /\
  accesses index v ps /\ ~ covers a ps /\
  (forall m env, run m env index v = run m env index w) /\ equivalent a b = false.
Proof.
  exists 4%nat, emptyFactory, (Gep 5 B None), (Gep 6 B (Some 4)).
  do 2 eexists. exists (mkLoc B [0] 0), (mkLoc B [4] 3), (fun _ => 4), [4].
  refine (conj _ (conj (Fresh _) (conj eq_refl (conj eq_refl (conj _ (conj _ (conj _ _))))))).
  - lia.
  - apply accesses_path. reflexivity.
  - cbv. intros [r H]. discriminate.
  - reflexivity.
  - reflexivity.
Qed.
Print Assumptions C56_create_variable_refuted.

(** At the bound an offset is dropped without forgetting the old one: the
    pointer's location is not equivalent to the one the pointer is created
    with. *)
Theorem C56_offset_refuted : exists bound f a v d f1 f2 b c ps qs, (1 <= bound)%nat /\ grown bound f /\ known f a /\
  create bound f v = Some (f, a) /\ withOffset f a (Some d) = Some (f1, b) /\
  create bound f (Gep 9 v (Some d)) = Some (f2, c) /\
  covers a ps /\ shifted d ps qs /\ ~ covers b qs /\ equivalent b c = false.
Proof.
  set (v := Load 5 B).
  set (f := match serveAll 2 emptyFactory [Create v] with Some f => f | None => emptyFactory end).
  exists 2%nat, f, (mkLoc B [0; 0] 0), v, 4. do 2 eexists. exists (mkLoc B [0; 0] 0), (mkLoc B [0; 4] 0), [0; 0], ([0] ++ [0 + 4]).
  refine (conj _ (conj _ (conj _ (conj eq_refl (conj eq_refl (conj eq_refl (conj _ (conj _ (conj _ _))))))))).
  - lia.
  - apply (start 2 [Create v]). reflexivity.
  - left. cbn. tauto.
  - cbv. exists []. reflexivity.
  - exact (ShiftedLast 4 [0] 0).
  - cbv. intros [r H]. discriminate.
  - reflexivity.
Qed.
Print Assumptions C56_offset_refuted.

Theorem C56_offsets_refuted : exists bound f a o os f' b ps qs, (1 <= bound)%nat /\ grown bound f /\ known f a /\
  withOffsets f a (o :: os) = Some (f', b) /\ covers a ps /\ shifted o ps qs /\ ~ covers b (qs ++ os).
Proof.
  set (v := Load 5 B).
  set (f := match serveAll 2 emptyFactory [Create v] with Some f => f | None => emptyFactory end).
  exists 2%nat, f, (mkLoc B [0; 0] 0), 4, []. eexists. exists (mkLoc B [0; 0] 0), [0; 0], ([0] ++ [0 + 4]).
  refine (conj _ (conj _ (conj _ (conj eq_refl (conj _ (conj _ _)))))).
  - lia.
  - apply (start 2 [Create v]). reflexivity.
  - left. cbn. tauto.
  - cbv. exists []. reflexivity.
  - exact (ShiftedLast 4 [0] 0).
  - cbv. intros [r H]. discriminate.
Qed.
Print Assumptions C56_offsets_refuted.

(** An over-approximated taint of a parameter returns as a taint of exactly
    the argument. *)
Theorem C56_transfer_from_refuted : exists bound f a to f' b ps o os qs, (1 <= bound)%nat /\ grown bound f /\
  known f a /\ known f to /\ withTransferFrom f a to = Some (f', b) /\
  lifetime to <> 0%nat /\ covers a (o :: os) /\ covers to ps /\ shifted o ps qs /\
  lifetime b <> 0%nat /\ ~ covers b (qs ++ os).
Proof.
  set (h := [Create B; Create (Load 5 (Gep 6 arg (Some 8)))]).
  set (f := match serveAll 2 emptyFactory h with Some f => f | None => emptyFactory end).
  exists 2%nat, f, (mkLoc arg [8; 0] 0), (mkLoc B [0] 1). eexists.
  exists (mkLoc B [0] 1), [0], 8, [0], ([] ++ [0 + 8]).
  refine (conj _ (conj _ (conj _ (conj _ (conj eq_refl (conj _ (conj _ (conj _ (conj _ (conj _ _)))))))))).
  - lia.
  - apply (start 2 h). reflexivity.
  - left. cbn. tauto.
  - left. cbn. tauto.
  - discriminate.
  - cbv. exists []. reflexivity.
  - reflexivity.
  - exact (ShiftedLast 8 [] 0).
  - discriminate.
  - cbv. discriminate.
Qed.
Print Assumptions C56_transfer_from_refuted.

(** The offset of a tainted field is lost on the way into a callee: the field
    at offset 8 of what the argument points to arrives as the one at offset 0. *)
Theorem C56_transfer_to_refuted : exists bound f a from to f' b fs o os qs c f'', (1 <= bound)%nat /\ grown bound f /\
  known f a /\ known f from /\ withTransferTo f a from to = Some (f', b) /\
  lifetime a <> 0%nat /\ lifetime from <> 0%nat /\ equivalent from a = true /\
  covers from fs /\ shifted o fs qs /\ covers a (qs ++ os) /\ ~ covers b (o :: os) /\
  create bound f' (Gep 9 (Load 8 to) (Some 8)) = Some (f'', c) /\ covers c (o :: os) /\ equivalent b c = false.
Proof.
  exists 4%nat, after, (mkLoc B [0; 8] 2), (mkLoc B [0] 3), arg. eexists.
  exists (mkLoc arg [0; 0] 2), [0], 0, [8], ([] ++ [0 + 0]), (mkLoc arg [0; 8] 2). eexists.
  refine (conj _ (conj after_grown (conj _ (conj _ (conj eq_refl (conj _ (conj _ (conj eq_refl (conj _ (conj _ (conj _ (conj _ (conj eq_refl (conj _ _)))))))))))))).
  - lia.
  - left. cbn. tauto.
  - left. cbn. tauto.
  - discriminate.
  - discriminate.
  - reflexivity.
  - exact (ShiftedLast 0 [] 0).
  - reflexivity.
  - cbv. discriminate.
  - reflexivity.
  - reflexivity.
Qed.
Print Assumptions C56_transfer_to_refuted.

(** A tainted pointer with an offset is stored and loaded back: the loaded
    pointer, equal to the tainted one, is not recognised as tainted. *)
Theorem C56_stored_fact_refuted : exists bound f source mem f1 f2 v p b c, (1 <= bound)%nat /\ grown bound f /\
  create bound f v = Some (f, source) /\ create bound f p = Some (f, mem) /\
  storedFact f source source mem = Some (f1, b) /\ create bound f1 (Load 9 p) = Some (f2, c) /\
  (forall m env index, m (run m env index p) = run m env index v ->
     standsFor m env c (run m env index v) /\ standsFor m env b (run m env index v + 4)) /\
  equivalent b c = false.
Proof.
  set (h := [Create (Gep 5 B (Some 4)); Create P]).
  set (f := match serveAll 4 emptyFactory h with Some f => f | None => emptyFactory end).
  exists 4%nat, f, (mkLoc B [4] 3), (mkLoc P [0] 3). do 2 eexists.
  exists (Gep 5 B (Some 4)), P, (mkLoc P [0; 4] 2), (mkLoc P [0; 0] 2).
  refine (conj _ (conj _ (conj eq_refl (conj eq_refl (conj eq_refl (conj eq_refl (conj _ _))))))).
  - lia.
  - apply (start 4 h). reflexivity.
  - intros m env index H. cbn in H. split; apply follows_follow; cbn; change (P) with (Base 2 true) in *; rewrite !Z.add_0_r, H; lia.
  - reflexivity.
Qed.
Print Assumptions C56_stored_fact_refuted.

(** A pointer and the pointer stored there "must alias". *)
Theorem C56_must_alias_refuted : exists bound f a b m env p q, (1 <= bound)%nat /\ grown bound f /\ known f a /\ known f b /\
  (forall pt fn, mustAlias pt fn a b = true) /\ lifetime a <> 0%nat /\ lifetime b <> 0%nat /\
  standsFor m env a p /\ standsFor m env b q /\ p <> q.
Proof.
  exists 4%nat, after, (mkLoc B [4] 3), (mkLoc B [4; 0] 2), (fun _ => 100), (fun _ => 0), 4, 100.
  refine (conj _ (conj after_grown (conj _ (conj _ (conj _ (conj _ (conj _ (conj _ (conj _ _))))))))).
  - lia.
  - left. cbn. tauto.
  - left. cbn. tauto.
  - intros pt fn. reflexivity.
  - discriminate.
  - discriminate.
  - apply follows_follow. reflexivity.
  - apply follows_follow. reflexivity.
  - lia.
Qed.
Print Assumptions C56_must_alias_refuted.

(** Equivalence is not transitive. *)
Theorem C56_equivalent_transitive_refuted : exists a b c,
  equivalent a b = true /\ equivalent b c = true /\ equivalent a c = false.
Proof. exists (mkLoc B [0; 4] 2), (mkLoc B [0] 3), (mkLoc B [0; 8] 2). repeat split. Qed.
Print Assumptions C56_equivalent_transitive_refuted.

(** The lifetime of a location depends on who asked for it first, and so does
    what becomes of it. *)
Theorem C56_lifetime_refuted : exists bound f g v f1 g1 a b ind f2 g2 c d, (1 <= bound)%nat /\ grown bound f /\ grown bound g /\
  create bound f v = Some (f1, a) /\ create bound g v = Some (g1, b) /\ lifetime a <> lifetime b /\
  withIndirectionOf f1 a ind = Some (f2, c) /\ withIndirectionOf g1 b ind = Some (g2, d) /\ offsets c <> offsets d.
Proof.
  set (v := Load 5 B).
  set (h := [Create v; TransferTo (mkLoc B [0; 0] 2) (mkLoc B [0; 0] 2) arg]).
  set (g := match serveAll 4 emptyFactory h with Some f => f | None => emptyFactory end).
  exists 4%nat, emptyFactory, g, arg. do 2 eexists. exists (mkLoc arg [0] 3), (mkLoc arg [0] 2), [1; 2; 3]. do 2 eexists.
  exists (mkLoc arg [0; 1; 2; 3] 0), (mkLoc arg [0; 1; 2] 0).
  refine (conj _ (conj (Fresh _) (conj _ (conj eq_refl (conj eq_refl (conj _ (conj eq_refl (conj eq_refl _)))))))).
  - lia.
  - apply (start 4 h). reflexivity.
  - discriminate.
  - discriminate.
Qed.
Print Assumptions C56_lifetime_refuted.
