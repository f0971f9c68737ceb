From Coq Require Import String Ascii List Bool Arith NArith ZArith Lia.
From Verif Require Import Assoc UtilitiesModel UtilitiesSpec.
Import ListNotations.
Open Scope nat_scope.

(** ** remove_by_index *)
Section R.
  Context {A : Type}.
  Implicit Types l m : list A.

  Lemma keep_app p l : forall k m, keep p k (l ++ m) = keep p k l ++ keep p (k + length l) m.
  Proof.
    induction l as [|x l IH]; intros k m; cbn [keep app length].
    - rewrite Nat.add_0_r. reflexivity.
    - rewrite IH. replace (S k + length l) with (k + S (length l)) by lia. destruct (p k); reflexivity.
  Qed.

  Lemma keep_all p l : forall k, (forall i, k <= i < k + length l -> p i = true) -> keep p k l = l.
  Proof.
    induction l as [|x l IH]; intros k Hp; cbn [keep]; [reflexivity|]. rewrite Hp by (cbn; lia). f_equal. apply IH. intros i Hi. apply Hp. cbn. lia.
  Qed.

  Lemma keep_ext p q l : forall k, (forall i, k <= i < k + length l -> p i = q i) -> keep p k l = keep q k l.
  Proof.
    induction l as [|x l IH]; intros k Hp; cbn [keep]; [reflexivity|]. rewrite <- (Hp k) by (cbn; lia). rewrite (IH (S k)); [reflexivity|].
    intros i Hi. apply Hp. cbn. lia.
  Qed.

  Lemma increasing_ge n idx : forall b x, increasing b idx n -> In x idx -> b <= x < n.
  Proof.
    induction idx as [|y r IH]; intros b x Hi Hx; cbn in *; [tauto|]. destruct Hi as [H1 [H2 H3]]. destruct Hx as [-> |Hx]; [lia|].
    specialize (IH (S y) x H3 Hx). lia.
  Qed.

  Lemma increasing_mono n idx : forall b c, c <= b -> increasing b idx n -> increasing c idx n.
  Proof. destruct idx; cbn; intros b c H; [auto|]. intuition lia. Qed.

  Lemma notin_existsb i idx : ~ In i idx -> existsb (Nat.eqb i) idx = false.
  Proof.
    intro H. destruct (existsb (Nat.eqb i) idx) eqn:E; [|reflexivity]. apply existsb_exists in E. destruct E as [x [Hx E]]. apply Nat.eqb_eq in E. subst. contradiction.
  Qed.

  Lemma keep_segment idx l i t : i <= t -> t <= length l -> (forall x, i <= x < t -> ~ In x idx) ->
    keep (fun x => negb (existsb (Nat.eqb x) idx)) i (firstn (t - i) (skipn i l)) = firstn (t - i) (skipn i l).
  Proof.
    intros H1 H2 Hn. apply keep_all. intros x Hx. rewrite firstn_length, skipn_length in Hx. rewrite notin_existsb; [reflexivity|]. apply Hn. lia.
  Qed.

  Lemma firstn_split l i t : i <= t -> firstn t l = firstn i l ++ firstn (t - i) (skipn i l).
  Proof.
    intro H. rewrite <- (firstn_skipn i l) at 1. rewrite firstn_app, firstn_firstn, firstn_length. replace (Nat.min t i) with i by lia.
    destruct (le_lt_dec i (length l)).
    - replace (t - Nat.min i (length l)) with (t - i) by lia. reflexivity.
    - rewrite !skipn_all2 by lia. rewrite !firstn_nil. reflexivity.
  Qed.

  Definition K idx l k := keep (fun x => negb (existsb (Nat.eqb x) idx)) 0 (firstn k l).

  Lemma K_step idx l i t : i <= t -> t <= length l -> (forall x, i <= x < t -> ~ In x idx) -> K idx l t = K idx l i ++ firstn (t - i) (skipn i l).
  Proof.
    intros H1 H2 Hn. unfold K. rewrite (firstn_split l i t H1), keep_app. f_equal. rewrite firstn_length, Nat.min_l by lia. cbn. apply keep_segment; auto.
  Qed.

  Lemma skipn_S k : forall l, skipn (S k) l = tl (skipn k l).
  Proof.
    induction k as [|k IH]; intro l; [destruct l; reflexivity|]. destruct l as [|x l]; [reflexivity|].
    change (skipn (S (S k)) (x :: l)) with (skipn (S k) l). change (skipn (S k) (x :: l)) with (skipn k l). apply IH.
  Qed.

  Lemma K_skip idx l i : In i idx -> K idx l (S i) = K idx l i.
  Proof.
    intro H. unfold K. rewrite (firstn_split l i (S i)) by lia. rewrite keep_app. rewrite <- app_nil_r. f_equal.
    replace (S i - i) with 1 by lia. destruct (skipn i l) as [|x r] eqn:E; [reflexivity|]. cbn.
    assert (L : length (firstn i l) = i). { rewrite firstn_length. destruct (le_lt_dec i (length l)); [lia|]. rewrite skipn_all2 in E by lia. discriminate. }
    rewrite L. destruct (existsb (Nat.eqb i) idx) eqn:Q; [reflexivity|]. exfalso. assert (existsb (Nat.eqb i) idx = true); [|congruence].
    apply existsb_exists. exists i. split; [exact H|apply Nat.eqb_refl].
  Qed.

  Lemma skipn_app_ge l m t : length l <= t -> skipn t (l ++ m) = skipn (t - length l) m.
  Proof. intro H. rewrite skipn_app. rewrite (skipn_all2 l) by lia. reflexivity. Qed.

  Lemma skipn_skipn' a : forall b l, skipn a (skipn b l) = skipn (a + b) l.
  Proof.
    intros b l. revert a. revert l. induction b as [|b IH]; intros l a; [rewrite Nat.add_0_r; reflexivity|].
    destruct l as [|x l]; [rewrite !skipn_nil; reflexivity|]. rewrite Nat.add_succ_r. cbn [skipn]. apply IH.
  Qed.

  Lemma move_ok m i t o : i <= t -> t <= length m -> o <= i -> exists m',
    stdMove m i t o = Some (m', o + (t - i)) /\ length m' = length m /\ firstn (o + (t - i)) m' = firstn o m ++ firstn (t - i) (skipn i m)
    /\ forall k, t <= k -> skipn k m' = skipn k m.
  Proof.
    intros H1 H2 H3. unfold stdMove. rewrite (proj2 (Nat.leb_le _ _) H1), (proj2 (Nat.leb_le _ _) H2), (proj2 (Nat.leb_le _ _) H3). cbn [andb].
    eexists. split; [reflexivity|].
    assert (L1 : length (firstn o m) = o) by (rewrite firstn_length; lia).
    assert (L2 : length (firstn (t - i) (skipn i m)) = t - i) by (rewrite firstn_length, skipn_length; lia).
    split; [|split].
    - rewrite !app_length, L1, L2, skipn_length. lia.
    - rewrite app_assoc, firstn_app, !app_length, L1, L2, Nat.sub_diag, firstn_O, app_nil_r. apply firstn_all2. rewrite app_length. lia.
    - intros k Hk. rewrite app_assoc. rewrite skipn_app_ge by (rewrite app_length; lia). rewrite app_length, L1, L2, skipn_skipn'. f_equal. lia.
  Qed.

  Lemma loop_ok l idx0 n : n = length l -> forall idx prev m i o,
    length m = n -> i = S prev -> prev < n -> o <= prev -> In prev idx0 ->
    firstn o m = K idx0 l i -> length (K idx0 l i) = o -> (forall k, i <= k -> skipn k m = skipn k l) ->
    increasing i idx n -> incl idx idx0 -> (forall x, i <= x -> In x idx0 -> In x idx) ->
    exists m' e, removeLoop n prev idx m i o = Some (m', e) /\ firstn e m' = K idx0 l n.
  Proof.
    intros Hn. induction idx as [|cur idx IH]; intros prev m i o Lm -> Hp Ho Hin F LK SK Inc Hi Hall; cbn [removeLoop].
    - destruct (move_ok m (S prev) n o) as [m' [E [_ [F' _]]]]; [lia..|]. rewrite E. do 2 eexists. split; [reflexivity|]. rewrite F', F, SK by lia.
      symmetry. apply K_step; [lia..|]. intros x Hx Hx0. exact (Hall x ltac:(lia) Hx0).
    - cbn [increasing] in Inc. destruct Inc as [I1 [I2 I3]]. destruct (prev + 1 =? cur) eqn:E.
      + apply Nat.eqb_eq in E. rewrite Nat.add_1_r in E. subst cur. rewrite Nat.add_1_r.
        assert (KS : K idx0 l (S (S prev)) = K idx0 l (S prev)) by (apply K_skip; apply Hi; left; reflexivity).
        apply IH; auto; try lia; try (rewrite KS; assumption).
        * apply Hi. left. reflexivity.
        * intros k Hk. apply SK. lia.
        * intros x Hx. apply Hi. right. exact Hx.
        * intros x Hx Hx0. destruct (Hall x ltac:(lia) Hx0) as [<- |Q]; [lia|exact Q].
      + apply Nat.eqb_neq in E. rewrite (proj2 (Nat.leb_gt n cur) I2).
        destruct (move_ok m (S prev) cur o) as [m' [E' [L' [F' S']]]]; [lia..|]. rewrite E'.
        assert (Kc : K idx0 l cur = K idx0 l (S prev) ++ firstn (cur - S prev) (skipn (S prev) l)).
        { apply K_step; [lia..|]. intros x Hx Hx0. destruct (Hall x ltac:(lia) Hx0) as [<- |Q]; [lia|]. pose proof (increasing_ge _ _ _ _ I3 Q). lia. }
        assert (KS : K idx0 l (S cur) = K idx0 l cur) by (apply K_skip; apply Hi; left; reflexivity).
        rewrite Nat.add_1_r. apply IH; auto; try lia.
        * apply Hi. left. reflexivity.
        * rewrite KS, Kc, F', F, SK by lia. reflexivity.
        * rewrite KS, Kc, app_length, LK, firstn_length, skipn_length. lia.
        * intros k Hk. rewrite S' by lia. apply SK. lia.
        * intros x Hx. apply Hi. right. exact Hx.
        * intros x Hx Hx0. destruct (Hall x ltac:(lia) Hx0) as [<- |Q]; [lia|exact Q].
  Qed.

  Lemma K_full idx l : K idx l (length l) = without idx l.
  Proof. unfold K, without. rewrite firstn_all. reflexivity. Qed.

  Lemma erase_ok l idx : increasing 0 idx (length l) -> eraseByIndex l idx = Some (without idx l).
  Proof.
    intro Inc. unfold eraseByIndex, removeByIndex. destruct idx as [|i idx].
    - rewrite firstn_all. rewrite <- K_full. unfold K. rewrite firstn_all. f_equal. symmetry. apply keep_all. reflexivity.
    - cbn [increasing] in Inc. destruct Inc as [_ [Hi Inc]]. destruct l as [|a l0] eqn:El; [cbn in Hi; lia|]. rewrite <- El in *. clear a l0 El.
      assert (H : (length l <? i + 1) = false) by (apply Nat.ltb_ge; lia). rewrite H.
      assert (Kc : K (i :: idx) l i = firstn i l).
      { change (firstn i l) with ([] ++ firstn i l). rewrite <- (Nat.sub_0_r i) at 3. change l with (skipn 0 l) at 2.
        rewrite (K_step (i :: idx) l 0 i); [reflexivity|lia|lia|]. intros x Hx [Q|Q]; [lia|]. pose proof (increasing_ge _ _ _ _ Inc Q). lia. }
      assert (KS : K (i :: idx) l (S i) = firstn i l) by (rewrite K_skip by (left; reflexivity); exact Kc).
      destruct (loop_ok l (i :: idx) (length l) eq_refl idx i l (i + 1) i) as [m' [e [E F]]]; rewrite ?Nat.add_1_r, ?KS; auto; try lia.
      + left. reflexivity.
      + rewrite firstn_length. lia.
      + intros x Hx. right. exact Hx.
      + intros x Hx [<- |Q]; [lia|exact Q].
      + rewrite Nat.add_1_r in E. rewrite E. f_equal. rewrite F. apply K_full.
  Qed.

  Lemma without_single l i : i < length l -> without [i] l = firstn i l ++ skipn (S i) l.
  Proof.
    intro Hi. rewrite <- K_full. rewrite (K_step [i] l (S i) (length l)) by (try lia; intros x Hx [Q|[]]; lia). rewrite K_skip by (left; reflexivity).
    rewrite (K_step [i] l 0 i) by (try lia; intros x Hx [Q|[]]; lia). cbn [K firstn keep app]. rewrite Nat.sub_0_r. f_equal.
    apply firstn_all2. rewrite skipn_length. lia.
  Qed.

  Lemma eraseFwd_single l i : i < length l -> eraseByIndexFwd l [i] = Some (without [i] l).
  Proof.
    intro Hi. rewrite without_single by exact Hi. unfold eraseByIndexFwd, removeByIndexFwd. destruct l as [|a l0] eqn:El; [cbn in Hi; lia|]. rewrite <- El in *. clear a l0 El.
    rewrite (proj2 (Nat.ltb_ge (length l) i) ltac:(lia)), (proj2 (Nat.eqb_neq (length l) i) ltac:(lia)).
    destruct (length l - i) as [|rest] eqn:Er; [lia|]. cbn [forwardLoop]. rewrite Nat.eqb_refl. destruct rest as [|rest]; cbn [forwardLoop].
    - f_equal. rewrite skipn_all2 by lia. rewrite app_nil_r. reflexivity.
    - rewrite (proj2 (Nat.eqb_neq (i + 1) i) ltac:(lia)).
      destruct (move_ok l (i + 1) (i + 1 + 1) i) as [m' [E1 [L1 [F1 S1]]]]; [lia..|]. rewrite E1. replace (i + 1 + 1 - (i + 1)) with 1 in * by lia.
      destruct (move_ok m' (i + 1 + 1) (length l) (i + 1)) as [m2 [E2 [L2 [F2 S2]]]]; [lia..|]. rewrite E2, F2, F1, S1 by lia. rewrite <- app_assoc. do 2 f_equal.
      replace (S i) with (i + 1) by lia. rewrite (firstn_all2 (skipn (i + 1 + 1) l)) by (rewrite skipn_length; lia).
      replace (i + 1 + 1) with (1 + (i + 1)) by lia. rewrite <- (skipn_skipn' 1 (i + 1) l). apply firstn_skipn.
  Qed.
End R.

(** ** intersectWith *)
Section I.
  Context {A} `{EqDec A}.
  Lemma in_mem (x : A) l : mem x l = true <-> In x l.
  Proof. unfold mem. destruct (in_dec eq_dec x l); split; intros; try congruence; tauto. Qed.
  Lemma intersectErase_filter (d s : list A) : intersectErase d s = filter (fun x => mem x s) d.
  Proof. induction d as [|x d IH]; cbn [intersectErase filter]; [reflexivity|]. destruct (mem x s); congruence. Qed.
  Lemma eraseAll_filter (b : list A) : forall d, fold_left (fun d x => setErase x d) b d = filter (fun y => negb (mem y b)) d.
  Proof.
    induction b as [|x b IH]; intro d; cbn [fold_left].
    - symmetry. rewrite <- (filter_ext (fun _ => true)); [|reflexivity]. induction d as [|y d IHd]; cbn; [reflexivity|]. f_equal. exact IHd.
    - rewrite IH. unfold setErase. clear IH. induction d as [|y d IHd]; [reflexivity|]. cbn [filter].
      assert (Q : mem y (x :: b) = eqb x y || mem y b).
      { destruct (mem y (x :: b)) eqn:E1; symmetry.
        - apply in_mem in E1. destruct E1 as [-> |E1]; [rewrite eqb_refl; reflexivity|]. rewrite (proj2 (in_mem _ _) E1). apply orb_true_r.
        - apply orb_false_iff. split.
          + apply eqb_false. intros ->. assert (mem y (y :: b) = true) by (apply in_mem; left; reflexivity). congruence.
          + destruct (mem y b) eqn:E2; [|reflexivity]. apply in_mem in E2. assert (mem y (x :: b) = true) by (apply in_mem; right; exact E2). congruence. }
      rewrite Q. destruct (eqb x y); cbn [negb orb filter]; [exact IHd|]. rewrite IHd. reflexivity.
  Qed.
  Lemma intersectCollect_filter (d s : list A) : intersectCollect d s = filter (fun x => mem x s) d.
  Proof.
    unfold intersectCollect. rewrite eraseAll_filter. apply filter_ext_in. intros x Hx. destruct (mem x s) eqn:E.
    - destruct (mem x (filter (fun x => negb (mem x s)) d)) eqn:E2; [|reflexivity]. apply in_mem in E2. apply filter_In in E2. destruct E2 as [_ E2]. rewrite E in E2. discriminate.
    - assert (Q : mem x (filter (fun x => negb (mem x s)) d) = true) by (apply in_mem; apply filter_In; rewrite E; auto). rewrite Q. reflexivity.
  Qed.
End I.

(** ** computePowerSet *)
Section P.
  Context {A} `{EqDec A}.
  (** the elements at the set bits *)
  Definition bits (I : N) (js : list (nat * A)) : list A := map snd (filter (fun p => N.testbit I (N.of_nat (fst p))) js).

  Lemma in_setInsert x y P : In x (setInsert (A := A) y P) <-> x = y \/ In x P.
  Proof.
    unfold setInsert. destruct (mem y P) eqn:E.
    - apply in_mem in E. split; [auto|]. intros [-> |Hx]; auto.
    - rewrite in_app_iff. cbn. intuition.
  Qed.
  Lemma setInsert_nodup y P : NoDup P -> NoDup (setInsert (A := A) y P).
  Proof.
    intro N. unfold setInsert. destruct (mem y P) eqn:E; [exact N|]. apply NoDup_rev in N. rewrite <- (rev_involutive (P ++ [y])), rev_app_distr. apply NoDup_rev. cbn. constructor; [|exact N].
    rewrite <- in_rev. intro Q. apply in_mem in Q. congruence.
  Qed.

  Lemma powInner_in I js : forall sub P, let r := powInner I js sub P in
    fst r = sub ++ bits I js
    /\ (forall x, In x (snd r) <-> In x P \/ exists a b, js = a ++ b /\ a <> [] /\ x = sub ++ bits I a)
    /\ (NoDup P -> NoDup (snd r)).
  Proof.
    induction js as [|[j x] js IH]; intros sub P r.
    - subst r. cbn. rewrite app_nil_r. split; [reflexivity|]. split; [|auto]. intro y. split; [auto|]. intros [Q|[a [b [E [Ha _]]]]]; [exact Q|]. destruct a; [now elim Ha|discriminate].
    - subst r. unfold powInner. cbn [fold_left].
      set (sub' := if N.testbit I (N.of_nat j) then sub ++ [x] else sub).
      assert (B : forall a, sub' ++ bits I a = sub ++ bits I ((j, x) :: a)).
      { intro a. unfold sub', bits. cbn [filter fst map]. destruct (N.testbit I (N.of_nat j)); cbn [map snd]; [rewrite <- app_assoc; reflexivity|reflexivity]. }
      destruct (IH sub' (setInsert sub' P)) as [I1 [I2 I3]]. unfold powInner in I1, I2, I3. split; [|split].
      + rewrite I1. apply B.
      + intro y. rewrite I2, in_setInsert. split.
        * intros [[-> |Q]|[a [b [-> [Ha ->]]]]]; [|auto|].
          -- right. exists [(j, x)], js. split; [reflexivity|]. split; [discriminate|]. rewrite <- B. cbn. rewrite app_nil_r. reflexivity.
          -- right. exists ((j, x) :: a), b. split; [reflexivity|]. split; [discriminate|]. apply B.
        * intros [Q|[a [b [E [Ha ->]]]]]; [auto|]. destruct a as [|p a]; [now elim Ha|]. injection E as <- ->. rewrite <- B.
          destruct a as [|q a]; [left; left; cbn; rewrite app_nil_r; reflexivity|]. right. exists (q :: a), b. split; [reflexivity|]. split; [discriminate|reflexivity].
      + intro N. apply I3. apply setInsert_nodup. exact N.
  Qed.

  Definition outer (s : list A) (b : N) := N.recursion [] (fun I P => snd (powInner I (combine (seq 0 (length s)) s) [] P)) b.
  Lemma outer_in s b : (forall x, In x (outer s b) <-> exists I a c, (I < b)%N /\ combine (seq 0 (length s)) s = a ++ c /\ a <> [] /\ x = bits I a)
    /\ NoDup (outer s b).
  Proof.
    induction b as [|b IH] using N.peano_ind.
    - cbn. split; [|constructor]. intro x. split; [tauto|]. intros [I [a [c [Hi _]]]]. lia.
    - destruct IH as [IH1 IH2].
      assert (E : outer s (N.succ b) = snd (powInner b (combine (seq 0 (length s)) s) [] (outer s b))).
      { unfold outer. rewrite (N.recursion_succ eq); [reflexivity|reflexivity|]. intros ? ? -> ? ? ->. reflexivity. }
      rewrite E. destruct (powInner_in b (combine (seq 0 (length s)) s) [] (outer s b)) as [_ [I2 I3]]. split; [|apply I3; exact IH2].
      intro x. rewrite I2, IH1. split.
      + intros [[I [a [c [Hi R]]]]|[a [c [Ec [Ha ->]]]]]; [exists I, a, c; split; [lia|exact R]|]. exists b, a, c. split; [lia|auto].
      + intros [I [a [c [Hi [Ec [Ha ->]]]]]]. destruct (N.eq_dec I b) as [-> |Ne]; [right; exists a, c; auto|]. left. exists I, a, c. split; [lia|auto].
  Qed.

  (** selecting by position is selecting by element *)
  Lemma bits_filter (s : list A) : NoDup s -> forall I k n, exists p, bits I (firstn n (combine (seq k (length s)) s)) = filter p s.
  Proof.
    induction s as [|x s IH]; intros ND I k n.
    - exists (fun _ => true). cbn. destruct n; reflexivity.
    - inversion ND as [|? ? Hx ND']; subst. destruct n as [|n].
      + exists (fun _ => false). cbn [firstn]. clear. induction (x :: s) as [|y l IHl]; [reflexivity|]. exact IHl.
      + destruct (IH ND' I (S k) n) as [p Hp]. exists (fun y => if eqb y x then N.testbit I (N.of_nat k) else p y).
        cbn [length seq combine firstn]. unfold bits. cbn [filter fst]. rewrite eqb_refl.
        assert (Q : filter (fun y => if eqb y x then N.testbit I (N.of_nat k) else p y) s = filter p s).
        { apply filter_ext_in. intros y Hy. assert (Nx : eqb y x = false) by (apply eqb_false; congruence). rewrite Nx. reflexivity. }
        rewrite Q, <- Hp. destruct (N.testbit I (N.of_nat k)); reflexivity.
  Qed.

  (** the number whose bits choose the elements satisfying [p] *)
  Fixpoint code (p : A -> bool) (s : list A) : N := match s with [] => 0 | x :: r => (if p x then 1 else 0) + 2 * code p r end%N.
  Lemma code_lt p s : (code p s < 2 ^ N.of_nat (length s))%N.
  Proof.
    induction s as [|x s IH]; cbn [code length]; [reflexivity|]. rewrite Nat2N.inj_succ, N.pow_succ_r'. destruct (p x); lia.
  Qed.
  Lemma code_bits p s : forall k I, (forall j, N.testbit I (N.of_nat (k + j)) = N.testbit (code p s) (N.of_nat j)) -> bits I (combine (seq k (length s)) s) = filter p s.
  Proof.
    induction s as [|x s IH]; intros k I Hb; [reflexivity|]. cbn [length seq combine]. unfold bits. cbn [filter fst].
    assert (B0 : N.testbit I (N.of_nat k) = p x).
    { specialize (Hb 0). rewrite Nat.add_0_r in Hb. rewrite Hb. cbn [code N.of_nat]. rewrite N.add_comm. destruct (p x); [apply N.testbit_odd_0|rewrite N.add_0_r; apply N.testbit_even_0]. }
    assert (R : bits I (combine (seq (S k) (length s)) s) = filter p s).
    { apply IH. intro j. replace (S k + j) with (k + S j) by lia. rewrite Hb. cbn [code]. rewrite Nat2N.inj_succ, N.add_comm.
      destruct (p x); [apply N.testbit_odd_succ; lia|rewrite N.add_0_r; apply N.testbit_even_succ; lia]. }
    rewrite B0. unfold bits in R. destruct (p x); cbn [map snd]; [f_equal|]; exact R.
  Qed.

  Lemma power_ok (s : list A) : NoDup s -> s <> [] -> length s <= 31 ->
    exists P, computePowerSet s = Some P /\ NoDup P /\ forall x, In x P <-> exists p, x = filter p s.
  Proof.
    intros ND Ne L. unfold computePowerSet.
    assert (Hb : exists b, shiftBound (length s) = Some b /\ (2 ^ N.of_nat (length s) <= b)%N).
    { unfold shiftBound. destruct (length s <=? 30) eqn:E; [eexists; split; [reflexivity|lia]|]. apply Nat.leb_gt in E. assert (E' : length s = 31) by lia. rewrite E'. cbn [Nat.eqb].
      eexists. split; [reflexivity|]. vm_compute. discriminate. }
    destruct Hb as [b [-> Hb]]. eexists. split; [reflexivity|]. destruct (outer_in s b) as [O1 O2]. fold (outer s b). split; [exact O2|].
    intro x. rewrite O1. split.
    - intros [I [a [c [_ [E [_ ->]]]]]]. assert (Ea : a = firstn (length a) (combine (seq 0 (length s)) s)) by (rewrite E, firstn_app, firstn_all, Nat.sub_diag; cbn; rewrite app_nil_r; reflexivity).
      destruct (bits_filter s ND I 0 (length a)) as [p Hp]. exists p. rewrite Ea. exact Hp.
    - intros [p ->]. exists (code p s), (combine (seq 0 (length s)) s), []. split; [pose proof (code_lt p s); lia|]. split; [rewrite app_nil_r; reflexivity|]. split.
      + destruct s; [now elim Ne|discriminate].
      + symmetry. apply code_bits. reflexivity.
  Qed.
End P.

(** ** StringIDLess *)
Open Scope Z_scope.
Definition key (s : string) : option Z := let '(v, b) := strtol s in if b then Some v else None.
(** numbers before everything else *)
Definition keyLt (a b : option Z) : Prop := match a, b with Some x, Some y => x < y | Some _, None => True | None, _ => False end.

Lemma ltb_irrefl s : String.ltb s s = false.
Proof.
  unfold String.ltb. assert (E : String.compare s s = Eq); [|rewrite E; reflexivity].
  induction s as [|c s IH]; cbn; [reflexivity|]. assert (E : Ascii.compare c c = Eq) by (unfold Ascii.compare; apply N.compare_refl). rewrite E. exact IH.
Qed.

Lemma strtol_noparse s v : strtol s = (v, false) -> v = 0.
Proof.
  unfold strtol. destruct (skipSpace s) as [|c t]; cbn -[digitsVal clampLong startsDigit].
  - unfold startsDigit. congruence.
  - destruct (eqb (N_of_ascii c) 45%N); [|destruct (eqb (N_of_ascii c) 43%N)]; destruct (startsDigit _); congruence.
Qed.

Lemma less_key same l r : (same = true -> l = r) -> (stringIDLess same l r = true <-> keyLt (key l) (key r)).
Proof.
  intro Hs. unfold stringIDLess, key. destruct (strtol l) as [lv lp] eqn:El, (strtol r) as [rv rp] eqn:Er.
  destruct lp, rp; cbn [negb andb]; rewrite ?andb_false_r; cbn.
  - apply Z.ltb_lt.
  - intuition.
  - split; [discriminate|tauto].
  - rewrite andb_true_r. apply strtol_noparse in El. apply strtol_noparse in Er. subst. destruct same.
    + rewrite (Hs eq_refl), ltb_irrefl. split; [discriminate|tauto].
    + cbn. split; [discriminate|tauto].
Qed.

(** decimal numbers *)
Lemma digitOf_char d : (d < 10)%nat -> digitOf (digitChar d) = Some (Z.of_nat d).
Proof. intro H. do 10 (destruct d as [|d]; [reflexivity|]). lia. Qed.
Lemma digitsVal_numeral ds : (forall d, In d ds -> (d < 10)%nat) -> forall acc, digitsVal (numeral ds) acc = fold_left (fun a d => 10 * a + Z.of_nat d) ds acc.
Proof.
  induction ds as [|d ds IH]; intros Hd acc; [reflexivity|]. cbn [numeral digitsVal fold_left]. rewrite digitOf_char by (apply Hd; left; reflexivity). apply IH. intros x Hx. apply Hd. right. exact Hx.
Qed.

Lemma digitChar_plain d : (d < 10)%nat -> isSpace (digitChar d) = false /\ eqb (N_of_ascii (digitChar d)) 45%N = false /\ eqb (N_of_ascii (digitChar d)) 43%N = false.
Proof. intro H. do 10 (destruct d as [|d]; [vm_compute; auto|]). lia. Qed.

Lemma strtol_numeral ds : canonical ds -> strtol (numeral ds) = (clampLong (value ds), true).
Proof.
  intros [Hd Hc]. destruct ds as [|d ds]; [tauto|]. assert (D : (d < 10)%nat) by (apply Hd; left; reflexivity).
  destruct (digitChar_plain d D) as [P1 [P2 P3]]. unfold strtol. cbn [numeral skipSpace]. rewrite P1, P2, P3. unfold startsDigit. rewrite digitOf_char by exact D.
  change (String (digitChar d) (numeral ds)) with (numeral (d :: ds)). rewrite digitsVal_numeral by exact Hd. reflexivity.
Qed.

Lemma fold_acc ds : forall a, fold_left (fun a d => 10 * a + Z.of_nat d) ds a = a * 10 ^ Z.of_nat (length ds) + value ds.
Proof.
  unfold value. induction ds as [|d ds IH]; intro a; cbn [fold_left length]; [cbn; lia|]. rewrite IH, (IH (10 * 0 + Z.of_nat d)). rewrite Nat2Z.inj_succ, Z.pow_succ_r by lia. ring.
Qed.
Lemma value_cons d ds : value (d :: ds) = Z.of_nat d * 10 ^ Z.of_nat (length ds) + value ds.
Proof. unfold value at 1. cbn [fold_left]. rewrite fold_acc. ring. Qed.
Lemma value_range ds : (forall d, In d ds -> (d < 10)%nat) -> 0 <= value ds < 10 ^ Z.of_nat (length ds).
Proof.
  induction ds as [|d ds IH]; intro Hd; [cbn; lia|]. rewrite value_cons. cbn [length]. rewrite Nat2Z.inj_succ, Z.pow_succ_r by lia.
  assert (D : (d < 10)%nat) by (apply Hd; left; reflexivity). specialize (IH (fun x Hx => Hd x (or_intror Hx))). nia.
Qed.
Lemma value_inj_len ds : forall es, length ds = length es -> (forall d, In d ds -> (d < 10)%nat) -> (forall d, In d es -> (d < 10)%nat) -> value ds = value es -> ds = es.
Proof.
  induction ds as [|d ds IH]; intros [|e es] L Hd He V; try discriminate; [reflexivity|]. injection L as L. rewrite !value_cons in V. rewrite L in V.
  pose proof (value_range ds (fun x Hx => Hd x (or_intror Hx))). pose proof (value_range es (fun x Hx => He x (or_intror Hx))). rewrite L in H.
  assert (d = e) by nia. subst e. f_equal. apply IH; auto; [intros; apply Hd; right; auto|intros; apply He; right; auto|lia].
Qed.
Lemma canonical_ge ds : canonical ds -> (2 <= length ds)%nat -> 10 ^ Z.of_nat (length ds - 1) <= value ds.
Proof.
  intros [Hd Hc] L. destruct ds as [|d [|e ds]]; cbn in L; try lia. rewrite value_cons. replace (length (d :: e :: ds) - 1)%nat with (length (e :: ds)) by (cbn; lia).
  pose proof (value_range (e :: ds) (fun x Hx => Hd x (or_intror Hx))). nia.
Qed.
Lemma value_len_lt ds es : canonical ds -> canonical es -> (length ds < length es)%nat -> value ds < value es.
Proof.
  intros Cd Ce L. destruct (value_range ds (proj1 Cd)) as [_ H1]. assert (Le : (length ds <> 0)%nat) by (destruct ds; [destruct Cd; tauto|cbn; lia]).
  pose proof (canonical_ge es Ce ltac:(lia)). assert (10 ^ Z.of_nat (length ds) <= 10 ^ Z.of_nat (length es - 1)) by (apply Z.pow_le_mono_r; lia). lia.
Qed.
Lemma value_inj ds es : canonical ds -> canonical es -> value ds = value es -> ds = es.
Proof.
  intros Cd Ce V. destruct (lt_eq_lt_dec (length ds) (length es)) as [[L|L]|L].
  - pose proof (value_len_lt _ _ Cd Ce L). lia.
  - apply value_inj_len; auto; [apply Cd|apply Ce].
  - pose proof (value_len_lt _ _ Ce Cd L). lia.
Qed.
