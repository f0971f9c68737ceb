From Coq Require Import List Bool Arith NArith Lia Permutation.
From Verif Require Import Assoc BitVectorSetModel BitVectorSetSpec.
Import ListNotations.

(** ** Bit vectors *)
Lemma bget_nil i : bget i [] = false.
Proof. destruct i; reflexivity. Qed.
Lemma bget_over i b : length b <= i -> bget i b = false.
Proof. apply nth_overflow. Qed.
Lemma bget_lt i b : bget i b = true -> i < length b.
Proof. intros E. destruct (lt_dec i (length b)); auto. rewrite bget_over in E by lia. discriminate. Qed.

Lemma bget_bor a : forall b i, bget i (bor a b) = bget i a || bget i b.
Proof.
  induction a as [|x a IH]; intros b i; [now rewrite bget_nil|].
  destruct b as [|y b]; cbn [bor]; [now rewrite bget_nil, orb_false_r|].
  destruct i; cbn; auto. apply IH.
Qed.
Lemma bget_band a : forall b i, bget i (band a b) = bget i a && bget i b.
Proof.
  induction a as [|x a IH]; intros b i; cbn [band]; [now rewrite bget_nil|].
  destruct b as [|y b].
  - rewrite bget_nil, andb_false_r. destruct i; [reflexivity|].
    change (bget (S i) (false :: band a [])) with (bget i (band a [])). now rewrite IH, bget_nil, andb_false_r.
  - destruct i; [reflexivity|]. apply (IH b i).
Qed.
Lemma bget_bminus a : forall b i, bget i (bminus a b) = bget i a && negb (bget i b).
Proof.
  induction a as [|x a IH]; intros b i; cbn [bminus]; [now rewrite bget_nil|].
  destruct b as [|y b]; [now rewrite bget_nil, andb_true_r|].
  destruct i; [reflexivity|]. apply (IH b i).
Qed.
Lemma bget_repeat i n : bget i (repeat false n) = false.
Proof. unfold bget. revert i. induction n; destruct i; cbn; auto. Qed.
Lemma bget_resize n b i : length b <= n -> bget i (resize n b) = bget i b.
Proof.
  intros Hn. unfold resize. rewrite firstn_all2 by auto. unfold bget.
  destruct (lt_dec i (length b)).
  - now rewrite app_nth1.
  - rewrite app_nth2 by lia. fold (bget (i - length b) (repeat false (n - length b))).
    rewrite bget_repeat. symmetry. apply nth_overflow. lia.
Qed.
Lemma length_resize n b : length b <= n -> length (resize n b) = n.
Proof. intros Hn. unfold resize. rewrite app_length, firstn_length, repeat_length. lia. Qed.

Lemma bput_ok v b : forall i, i < length b -> exists b', bput v i b = Some b' /\ length b' = length b /\
  forall j, bget j b' = if j =? i then v else bget j b.
Proof.
  induction b as [|x b IH]; intros i Hi; cbn in Hi; [lia|].
  destruct i.
  - exists (v :: b). split; [reflexivity|]. split; [reflexivity|]. intros [|j]; reflexivity.
  - destruct (IH i) as (b' & E & L & G); [lia|]. exists (x :: b'). cbn [bput]. rewrite E.
    split; [reflexivity|]. split; [cbn; now rewrite L|]. intros [|j]; [reflexivity|]. apply G.
Qed.

Lemma bnone_true b : bnone b = true <-> forall i, bget i b = false.
Proof.
  unfold bnone. induction b as [|x b IH]; cbn.
  - split; auto. intros _ i. apply bget_nil.
  - rewrite andb_true_iff, negb_true_iff, IH. split.
    + intros [-> Hb] [|i]; [reflexivity|apply Hb].
    + intros Hb. split; [apply (Hb 0)|intros i; apply (Hb (S i))].
Qed.

Lemma btest_true a : forall b, btest a b = true <-> exists i, bget i a = true /\ bget i b = false.
Proof.
  induction a as [|x a IH]; intros b; cbn [btest].
  - split; [discriminate|]. intros (i & Hi & _). rewrite bget_nil in Hi. discriminate.
  - destruct b as [|y b].
    + rewrite orb_true_iff, IH. split.
      * intros [->|(i & Hi & _)]; [exists 0; auto|exists (S i); split; auto].
      * intros (i & Hi & _). destruct i; [auto|]. right. exists i. split; auto. apply bget_nil.
    + rewrite orb_true_iff, andb_true_iff, negb_true_iff, IH. split.
      * intros [[-> ->]|(i & Hi & Hj)]; [exists 0; auto|exists (S i); auto].
      * intros ([|i] & Hi & Hj); [auto|]. right. exists i. auto.
Qed.

Lemma find_first_Some b : forall i, find_first b = Some i <->
  bget i b = true /\ forall j, j < i -> bget j b = false.
Proof.
  induction b as [|x b IH]; intros i; cbn [find_first].
  - split; [discriminate|]. intros [Hi _]. rewrite bget_nil in Hi. discriminate.
  - destruct x.
    + split.
      * intros [= <-]. split; [reflexivity|]. intros j Hj. lia.
      * intros [_ Hj]. destruct i; auto. specialize (Hj 0 ltac:(lia)). discriminate.
    + destruct (find_first b) as [k|] eqn:E; cbn.
      * destruct (proj1 (IH k) eq_refl) as [Hk Hl]. split.
        -- intros [= <-]. split; [exact Hk|]. intros [|j] Hj; [reflexivity|]. apply Hl. lia.
        -- intros [Hi Hj]. destruct i as [|i]; [discriminate|].
           assert (Hs : Some k = Some i).
           { apply IH. split; [exact Hi|]. intros j Hlt. apply (Hj (S j)). lia. }
           congruence.
      * split; [discriminate|]. intros [Hi Hj]. destruct i as [|i]; [discriminate|].
        assert (Hs : None = Some i).
        { apply IH. split; [exact Hi|]. intros j Hlt. apply (Hj (S j)). lia. }
        discriminate.
Qed.
Lemma find_first_None b : find_first b = None <-> forall i, bget i b = false.
Proof.
  induction b as [|x b IH]; cbn [find_first].
  - split; auto. intros _ i. apply bget_nil.
  - destruct x.
    + split; [discriminate|]. intros Hi. specialize (Hi 0). discriminate.
    + destruct (find_first b); cbn.
      * split; [discriminate|]. intros Hi. enough (Some n = None) by discriminate.
        apply IH. intros i. apply (Hi (S i)).
      * split; auto. intros _ [|i]; [reflexivity|]. now apply IH.
Qed.

Lemma bget_skipn lo : forall b i, bget i (skipn lo b) = bget (lo + i) b.
Proof.
  unfold bget. induction lo as [|lo IH]; intros b i; [reflexivity|].
  destruct b; cbn [skipn]; [cbn; destruct i; auto|apply IH].
Qed.
Lemma bget_firstn n : forall b i, bget i (firstn n b) = (i <? n) && bget i b.
Proof.
  unfold bget. induction n as [|n IH]; intros b i; [destruct i; reflexivity|].
  destruct b; cbn [firstn]; [destruct i; cbn [nth]; now rewrite andb_false_r|].
  destruct i; [reflexivity|]. cbn [nth]. rewrite IH. reflexivity.
Qed.

Lemma find_first_in_Some lo hi b i : find_first_in lo hi b = Some i <->
  lo <= i < hi /\ bget i b = true /\ forall j, lo <= j < i -> bget j b = false.
Proof.
  unfold find_first_in. destruct (find_first _) as [k|] eqn:E; cbn.
  - apply find_first_Some in E as [E1 E2]. rewrite bget_firstn, bget_skipn in E1.
    apply andb_true_iff in E1 as [Hk E1]. apply Nat.ltb_lt in Hk.
    assert (E3 : forall j, lo <= j < lo + k -> bget j b = false).
    { intros j Hj. specialize (E2 (j - lo) ltac:(lia)). rewrite bget_firstn, bget_skipn in E2.
      replace (lo + (j - lo)) with j in E2 by lia.
      destruct (j - lo <? hi - lo) eqn:Ej; auto. apply Nat.ltb_ge in Ej. lia. }
    split.
    + intros [= <-]. split; [lia|]. split; [exact E1|exact E3].
    + intros (Hi & Hb & Hj). f_equal.
      destruct (lt_eq_lt_dec (lo + k) i) as [[Hl|]|Hl]; auto.
      * rewrite (Hj (lo + k)) in E1 by lia. discriminate.
      * rewrite E3 in Hb by lia. discriminate.
  - split; [discriminate|]. intros (Hi & Hb & _). rewrite find_first_None in E.
    specialize (E (i - lo)). rewrite bget_firstn, bget_skipn in E.
    replace (lo + (i - lo)) with i in E by lia. rewrite Hb, andb_true_r in E.
    apply Nat.ltb_ge in E. lia.
Qed.
Lemma find_first_in_None lo hi b : find_first_in lo hi b = None <->
  forall i, lo <= i < hi -> bget i b = false.
Proof.
  split.
  - intros E i Hi. destruct (bget i b) eqn:Eb; auto.
    unfold find_first_in in E. destruct (find_first _) as [k|] eqn:Ef; [discriminate|].
    rewrite find_first_None in Ef. specialize (Ef (i - lo)). rewrite bget_firstn, bget_skipn in Ef.
    replace (lo + (i - lo)) with i in Ef by lia. rewrite Eb, andb_true_r in Ef.
    apply Nat.ltb_ge in Ef. lia.
  - intros Hb. destruct (find_first_in lo hi b) as [i|] eqn:E; auto.
    apply find_first_in_Some in E as (Hi & Hx & _). rewrite Hb in Hx by auto. discriminate.
Qed.

(** ** The value of a bit vector *)
Lemma wordValue_eq a : forall b, wordValue a = wordValue b <-> forall i, bget i a = bget i b.
Proof.
  induction a as [|x a IH]; intros b.
  - induction b as [|y b IHb].
    + split; auto.
    + cbn [wordValue] in *. split.
      * intros E. assert (y = false) by (destruct y; auto; cbn [N.b2n] in E; lia). subst.
        assert (E0 : 0%N = wordValue b) by (cbn [N.b2n] in E; lia).
        intros [|i]; [reflexivity|]. rewrite bget_nil. rewrite <- (bget_nil i). now apply IHb.
      * intros Hb. pose proof (Hb 0) as H0. cbn in H0. subst.
        assert (E0 : 0%N = wordValue b).
        { apply IHb. intros i. specialize (Hb (S i)). rewrite bget_nil in *. exact Hb. }
        rewrite <- E0. reflexivity.
  - destruct b as [|y b].
    + cbn [wordValue]. split.
      * intros E. assert (x = false) by (destruct x; auto; cbn [N.b2n] in E; lia). subst.
        assert (E0 : wordValue a = wordValue []) by (cbn [N.b2n wordValue] in *; lia).
        intros [|i]; [reflexivity|]. rewrite bget_nil. rewrite <- (bget_nil i). now apply IH.
      * intros Hb. pose proof (Hb 0) as H0. cbn in H0. subst.
        assert (E0 : wordValue a = wordValue []).
        { apply IH. intros i. specialize (Hb (S i)). rewrite bget_nil in *. exact Hb. }
        rewrite E0. reflexivity.
    + cbn [wordValue]. split.
      * intros E. assert (x = y /\ wordValue a = wordValue b) as [-> E0] by (destruct x, y; cbn [N.b2n] in E; split; auto; lia).
        intros [|i]; [reflexivity|]. exact (proj1 (IH b) E0 i).
      * intros Hb. pose proof (Hb 0) as H0. cbn in H0. subst. f_equal. f_equal. apply IH.
        intros i. apply (Hb (S i)).
Qed.

Fixpoint val (n : nat) (b : bits) : N :=
  match n with 0 => 0 | S i => val i b + N.b2n (bget i b) * 2 ^ N.of_nat i end.

Lemma val_lt n b : (val n b < 2 ^ N.of_nat n)%N.
Proof.
  induction n; cbn [val]; [reflexivity|].
  rewrite Nat2N.inj_succ, N.pow_succ_r'. destruct (bget n b); cbn [N.b2n]; lia.
Qed.
Lemma val_cons n x b : (val (S n) (x :: b) = N.b2n x + 2 * val n b)%N.
Proof.
  induction n; [cbn [val]; rewrite N.mul_1_r; cbn; destruct x; reflexivity|].
  change (val (S (S n)) (x :: b)) with (val (S n) (x :: b) + N.b2n (bget n b) * 2 ^ N.of_nat (S n))%N.
  rewrite IHn. cbn [val]. rewrite Nat2N.inj_succ, N.pow_succ_r'. lia.
Qed.
Lemma val_zeros m n b : m <= n -> (forall i, m <= i < n -> bget i b = false) -> val n b = val m b.
Proof.
  induction n as [|n IH]; intros Hm Hz; [now replace m with 0 by lia|].
  destruct (Nat.eq_dec m (S n)) as [->|]; [reflexivity|].
  cbn [val]. rewrite Hz by lia. rewrite IH; [cbn; lia|lia|]. intros i Hi. apply Hz. lia.
Qed.
Lemma val_full b : val (length b) b = wordValue b.
Proof.
  induction b as [|x b IH]; [reflexivity|]. cbn [length]. rewrite val_cons, IH. reflexivity.
Qed.
Lemma val_bit i n b : i < n -> bget i b = true -> (2 ^ N.of_nat i <= val n b)%N.
Proof.
  induction n as [|n IH]; intros Hi Hb; [lia|]. cbn [val].
  destruct (Nat.eq_dec i n) as [->|].
  - rewrite Hb. cbn [N.b2n]. lia.
  - specialize (IH ltac:(lia) Hb). lia.
Qed.

Lemma lessDown_val n l r : lessDown n l r = (val n l <? val n r)%N.
Proof.
  induction n as [|n IH]; [reflexivity|]. cbn [lessDown val]. rewrite IH.
  pose proof (val_lt n l). pose proof (val_lt n r).
  destruct (bget n l), (bget n r); cbn [Bool.eqb N.b2n];
    repeat match goal with |- context [(?a <? ?b)%N] => destruct (N.ltb_spec a b) end; auto; lia.
Qed.

Lemma isLess_val l r : isLess l r = (wordValue l <? wordValue r)%N.
Proof.
  unfold isLess. rewrite <- (val_full l), <- (val_full r).
  destruct (Nat.ltb_spec (length r) (length l)) as [Hl|Hl]; cbn [andb].
  - destruct (find_first_in (length r) (length l) l) as [i|] eqn:E.
    + apply find_first_in_Some in E as (Hi & Hb & _).
      pose proof (val_bit i (length l) l ltac:(lia) Hb). pose proof (val_lt (length r) r).
      assert (2 ^ N.of_nat (length r) <= 2 ^ N.of_nat i)%N by (apply N.pow_le_mono_r; lia).
      symmetry. apply N.ltb_ge. lia.
    + rewrite find_first_in_None in E.
      assert (length l <? length r = false) as -> by (apply Nat.ltb_ge; lia). cbn [andb].
      rewrite Nat.min_r by lia. rewrite lessDown_val.
      rewrite (val_zeros (length r) (length l)); auto. lia.
  - destruct (Nat.ltb_spec (length l) (length r)) as [Hr|Hr]; cbn [andb].
    + destruct (find_first_in (length l) (length r) r) as [i|] eqn:E.
      * apply find_first_in_Some in E as (Hi & Hb & _).
        pose proof (val_bit i (length r) r ltac:(lia) Hb). pose proof (val_lt (length l) l).
        assert (2 ^ N.of_nat (length l) <= 2 ^ N.of_nat i)%N by (apply N.pow_le_mono_r; lia).
        symmetry. apply N.ltb_lt. lia.
      * rewrite find_first_in_None in E. rewrite Nat.min_l by lia. rewrite lessDown_val.
        rewrite (val_zeros (length l) (length r)); auto.
    + assert (length l = length r) by lia. rewrite Nat.min_l by lia. rewrite lessDown_val. congruence.
Qed.

(** ** Data words *)
Fixpoint wv (w : list N) : N := match w with [] => 0 | x :: w' => x + 2 ^ 64 * wv w' end.
Definition wordsOK (w : list N) : Prop := Forall (fun x => x < 2 ^ 64)%N w.

Lemma wordValue_app a b : wordValue (a ++ b) = (wordValue a + 2 ^ N.of_nat (length a) * wordValue b)%N.
Proof.
  induction a as [|x a IH]; [cbn [app wordValue length N.of_nat]; rewrite N.pow_0_r; lia|].
  cbn [app wordValue length]. rewrite IH, Nat2N.inj_succ, N.pow_succ_r'. lia.
Qed.
Lemma wordValue_lt b : (wordValue b < 2 ^ N.of_nat (length b))%N.
Proof. rewrite <- val_full. apply val_lt. Qed.

Lemma chunks_S fuel x b : chunks (S fuel) (x :: b) = firstn 64 (x :: b) :: chunks fuel (skipn 64 (x :: b)).
Proof. reflexivity. Qed.

Lemma getData_spec fuel : forall b, length b <= fuel ->
  wv (map wordValue (chunks fuel b)) = wordValue b /\ wordsOK (map wordValue (chunks fuel b)).
Proof.
  induction fuel as [|fuel IH]; intros b Hb.
  - destruct b; [split; [reflexivity|constructor]|cbn in Hb; lia].
  - destruct b as [|x b]; [split; [reflexivity|constructor]|].
    rewrite chunks_S. cbn [map wv].
    assert (Hs : length (skipn 64 (x :: b)) <= fuel) by (rewrite skipn_length; cbn [length] in *; lia).
    destruct (IH _ Hs) as [E O]. rewrite E. split.
    + rewrite <- (firstn_skipn 64 (x :: b)) at 3. rewrite wordValue_app.
      destruct (Nat.leb_spec 64 (length (x :: b))).
      * rewrite firstn_length_le by auto. reflexivity.
      * rewrite skipn_all2 by lia. cbn [wordValue]. lia.
    + constructor; auto. eapply N.lt_le_trans; [apply wordValue_lt|].
      apply N.pow_le_mono_r; [lia|]. rewrite firstn_length. lia.
Qed.

Lemma wv_getData b : wv (getData b) = wordValue b.
Proof. apply (getData_spec (length b) b); auto. Qed.
Lemma getData_OK b : wordsOK (getData b).
Proof. apply (getData_spec (length b) b); auto. Qed.

Lemma wv_cons_inj x a y b : (x < 2 ^ 64)%N -> (y < 2 ^ 64)%N ->
  (x + 2 ^ 64 * wv a = y + 2 ^ 64 * wv b)%N -> x = y /\ wv a = wv b.
Proof. intros Hx Hy E. generalize dependent (2 ^ 64)%N. intros m Hx Hy E.
  assert (wv a = wv b /\ x = y) as [? ?]; [|auto].
  apply (N.div_mod_unique m); auto. lia.
Qed.

Lemma wv_inj a : forall b, wordsOK a -> wordsOK b -> length a = length b -> wv a = wv b -> a = b.
Proof.
  induction a as [|x a IH]; intros [|y b] Ha Hb Hl E; auto; try discriminate.
  inversion Ha; subst. inversion Hb; subst. cbn [wv] in E.
  apply wv_cons_inj in E as [-> E]; auto. f_equal. apply IH; auto.
Qed.

Lemma wv_zero a : wv a = 0%N <-> forallb (N.eqb 0) a = true.
Proof.
  induction a as [|x a IH]; cbn [wv forallb]; [split; auto|].
  rewrite andb_true_iff, N.eqb_eq, <- IH. generalize (eq_refl (2 ^ 64)%N).
  assert (0 < 2 ^ 64)%N by reflexivity. generalize dependent (2 ^ 64)%N. intros m Hm _. nia.
Qed.

Lemma wv_firstn_skipn n : forall a, n <= length a ->
  wv a = (wv (firstn n a) + 2 ^ (64 * N.of_nat n) * wv (skipn n a))%N.
Proof.
  induction n as [|n IH]; intros a Hn.
  - cbn [firstn skipn wv]. rewrite N.mul_0_r, N.pow_0_r. lia.
  - destruct a as [|x a]; [cbn in Hn; lia|]. cbn [firstn skipn wv]. rewrite (IH a) by (cbn in Hn; lia).
    replace (64 * N.of_nat (S n))%N with (64 + 64 * N.of_nat n)%N by lia. rewrite N.pow_add_r.
    generalize (2 ^ 64)%N (2 ^ (64 * N.of_nat n))%N. intros. lia.
Qed.

Lemma wv_lt a : wordsOK a -> (wv a < 2 ^ (64 * N.of_nat (length a)))%N.
Proof.
  induction a as [|x a IH]; intros Ha; [reflexivity|].
  inversion Ha; subst. specialize (IH H2). cbn [wv length].
  replace (64 * N.of_nat (S (length a)))%N with (64 + 64 * N.of_nat (length a))%N by lia.
  rewrite N.pow_add_r. generalize dependent (2 ^ 64)%N. generalize dependent (2 ^ (64 * N.of_nat (length a)))%N.
  intros. nia.
Qed.

Lemma longer_eq a b : wordsOK a -> wordsOK b -> length b <= length a ->
  (wv a = wv b <-> firstn (length b) a = b /\ forallb (N.eqb 0) (skipn (length b) a) = true).
Proof.
  intros Ha Hb Hl. rewrite <- wv_zero. rewrite (wv_firstn_skipn (length b) a Hl).
  assert (Hf : wordsOK (firstn (length b) a)) by (rewrite <- (firstn_skipn (length b) a) in Ha; apply Forall_app in Ha; tauto).
  assert (Hfl : length (firstn (length b) a) = length b) by (rewrite firstn_length; lia).
  split.
  - intros E. pose proof (wv_lt b Hb) as B1. pose proof (wv_lt _ Hf) as B2. rewrite Hfl in B2.
    set (M := (2 ^ (64 * N.of_nat (length b)))%N) in *.
    assert (wv (skipn (length b) a) = 0)%N as Hz by nia.
    split; auto. apply wv_inj; auto. rewrite Hz in E. lia.
  - intros [-> ->]. lia.
Qed.

Lemma firstn_eq_self {A} (l : list A) : firstn (length l) l = l.
Proof. apply firstn_all. Qed.

Lemma bvsEq_val l r : bvsEq l r = (wordValue l =? wordValue r)%N.
Proof.
  unfold bvsEq. pose proof (getData_OK l) as Ol. pose proof (getData_OK r) as Or.
  assert (Hz : forall b, bnone b = (wordValue b =? 0)%N).
  { intros b. apply Bool.eq_iff_eq_true. rewrite bnone_true, N.eqb_eq. change 0%N with (wordValue []).
    rewrite wordValue_eq. split; intros Hb i; specialize (Hb i); rewrite ?bget_nil in *; auto. }
  rewrite !Hz. rewrite <- (wv_getData l), <- (wv_getData r).
  generalize dependent (getData l). intros lw Ol. generalize dependent (getData r). intros rw Or.
  apply Bool.eq_iff_eq_true. rewrite N.eqb_eq.
  destruct ((wv lw =? 0) || (wv rw =? 0))%N eqn:E0.
  - rewrite Bool.eqb_true_iff. destruct (N.eqb_spec (wv lw) 0), (N.eqb_spec (wv rw) 0); split; intros; try congruence; try discriminate; lia.
  - destruct (Nat.eqb_spec (length lw) (length rw)) as [Hl|Hl].
    + rewrite (eqb_true lw rw). split; [congruence|]. intros; apply wv_inj; auto.
    + destruct (Nat.ltb_spec (length rw) (length lw)) as [Hlt|Hge].
      * rewrite Nat.min_r by lia. rewrite (longer_eq lw rw) by (auto; lia).
        rewrite firstn_eq_self. destruct (eqb (firstn (length rw) lw) rw) eqn:Eq; cbn [negb].
        -- apply (eqb_eq (firstn (length rw) lw) rw) in Eq. tauto.
        -- split; [discriminate|]. intros [Hx _]. rewrite Hx, eqb_refl in Eq. discriminate.
      * rewrite Nat.min_l by lia. assert (Hle : length lw <= length rw) by lia.
        assert (Hsym : wv lw = wv rw <-> wv rw = wv lw) by (split; congruence). rewrite Hsym.
        rewrite (longer_eq rw lw) by auto.
        rewrite firstn_eq_self. destruct (eqb lw (firstn (length lw) rw)) eqn:Eq; cbn [negb].
        -- apply (eqb_eq lw) in Eq. rewrite <- Eq. tauto.
        -- split; [discriminate|]. intros [Hx _]. rewrite Hx, eqb_refl in Eq. discriminate.
Qed.

Lemma bvsEq_bits l r : bvsEq l r = true <-> forall i, bget i l = bget i r.
Proof. rewrite bvsEq_val, N.eqb_eq. apply wordValue_eq. Qed.

Lemma dropZeros_nil w : dropZeros w = [] <-> wv w = 0%N.
Proof.
  induction w as [|x w IH]; cbn [dropZeros wv]; [tauto|].
  destruct (dropZeros w) as [|y r].
  - rewrite (proj1 IH eq_refl), N.mul_0_r, N.add_0_r. destruct (N.eqb_spec x 0); subst; split; intros; auto; congruence.
  - split; [discriminate|]. intros E. enough (wv w = 0%N) by (apply IH in H; discriminate).
    assert (0 < 2 ^ 64)%N by reflexivity. generalize dependent (2 ^ 64)%N. intros. nia.
Qed.
Lemma dropZeros_eq a : forall b, wordsOK a -> wordsOK b -> wv a = wv b -> dropZeros a = dropZeros b.
Proof.
  induction a as [|x a IH]; intros b Ha Hb E.
  - symmetry in E. apply dropZeros_nil in E. rewrite E. reflexivity.
  - destruct b as [|y b].
    + apply (dropZeros_nil (x :: a)) in E. rewrite E. reflexivity.
    + inversion Ha; subst. inversion Hb; subst. cbn [wv] in E. apply wv_cons_inj in E as [-> E]; auto.
      cbn [dropZeros]. now rewrite (IH b).
Qed.

Lemma hash_nonempty range l r : l <> [] -> r <> [] -> bvsEq l r = true ->
  hash_value range l = hash_value range r.
Proof.
  intros Hl Hr E. rewrite bvsEq_val, N.eqb_eq in E.
  unfold hash_value. destruct l; [congruence|]. destruct r; [congruence|].
  f_equal. apply dropZeros_eq; auto using getData_OK. now rewrite !wv_getData.
Qed.
Lemma hash_if_empty_range range l r : range [] = 0%N -> bvsEq l r = true ->
  hash_value range l = hash_value range r.
Proof.
  intros Hr E. rewrite bvsEq_val, N.eqb_eq in E.
  assert (Hh : forall b, hash_value range b = range (dropZeros (getData b))).
  { intros [|x b]; [cbn; auto|reflexivity]. }
  rewrite !Hh. f_equal. apply dropZeros_eq; auto using getData_OK. now rewrite !wv_getData.
Qed.
Lemma hash_nonempty_sets range l r : bnone l = false -> bvsEq l r = true ->
  hash_value range l = hash_value range r.
Proof.
  intros Hn E. apply hash_nonempty; auto.
  - intros ->. discriminate.
  - intros ->. rewrite bvsEq_bits in E. assert (bnone l = true); [|congruence].
    apply bnone_true. intros i. now rewrite E, bget_nil.
Qed.

(** ** Histories *)
Section P.
  Context {T : Type} `{EqDec T}.
  Implicit Types (p : list T) (x y : T) (s : state T).

  Lemma posOf_Some x p : forall i, posOf x p = Some i -> nth_error p i = Some x.
  Proof.
    induction p as [|y p IH]; intros i; cbn [posOf]; [discriminate|].
    destruct (eqb x y) eqn:E.
    - apply eqb_eq in E as ->. intros [= <-]. reflexivity.
    - destruct (posOf x p); [|discriminate]. intros [= <-]. cbn. auto.
  Qed.
  Lemma posOf_None x p : posOf x p = None <-> ~ In x p.
  Proof.
    induction p as [|y p IH]; cbn [posOf In]; [tauto|].
    destruct (eqb x y) eqn:E.
    - apply eqb_eq in E as ->. split; [discriminate|]. tauto.
    - assert (y <> x) by (intros ->; rewrite eqb_refl in E; discriminate).
      destruct (posOf x p); cbn.
      + split; [discriminate|]. intros Hn. exfalso. assert (Some n = None); [|discriminate]. apply IH. tauto.
      + split; auto. intros _ [|Hi]; auto. now apply IH.
  Qed.
  Lemma nth_inj p i j x : NoDup p -> nth_error p i = Some x -> nth_error p j = Some x -> i = j.
  Proof.
    intros Hn Hi Hj. apply (proj1 (NoDup_nth_error p) Hn); [apply nth_error_Some; congruence|congruence].
  Qed.
  Lemma posOf_nth x p i : NoDup p -> nth_error p i = Some x -> posOf x p = Some i.
  Proof.
    intros Hn E. destruct (posOf x p) as [j|] eqn:Ej.
    - f_equal. apply posOf_Some in Ej. eapply NoDup_nth_error; eauto; [|congruence].
      apply nth_error_Some. congruence.
    - apply posOf_None in Ej. exfalso. apply Ej. eapply nth_error_In; eauto.
  Qed.
  Lemma posOf_lt x p i : posOf x p = Some i -> i < length p.
  Proof. intros E. apply posOf_Some in E. apply nth_error_Some. congruence. Qed.
  Lemma posOf_app x y p : posOf x (p ++ [y]) =
    match posOf x p with Some i => Some i | None => if eqb x y then Some (length p) else None end.
  Proof.
    induction p as [|z p IH]; cbn [app posOf]; [destruct (eqb x y); reflexivity|].
    destruct (eqb x z); [reflexivity|]. rewrite IH. destruct (posOf x p); [reflexivity|].
    destruct (eqb x y); reflexivity.
  Qed.

  Lemma count_eq x p b : count x p b = match posOf x p with Some i => bget i b | None => false end.
  Proof.
    unfold count. destruct (posOf x p); auto. destruct (Nat.ltb_spec n (length b)); auto.
    symmetry. now apply bget_over.
  Qed.

  Definition inv s : Prop :=
    NoDup (position s) /\ forall o i, bget i (obj o s) = true -> i < length (position s).

  Lemma inv_init : inv init.
  Proof. split; [constructor|]. intros o i. change (obj o init) with (@nil bool). rewrite bget_nil. discriminate. Qed.

  Lemma obj_aset o o' b p l : obj o (mkState p (aset o' b l)) = if o =? o' then b else obj o (mkState p l).
  Proof.
    unfold obj, afindd. cbn. rewrite afind_aset. destruct (eq_dec o o') as [->|Hn].
    - now rewrite Nat.eqb_refl.
    - apply Nat.eqb_neq in Hn. now rewrite Hn.
  Qed.
  Lemma obj_put o o' b s : obj o (put o' b s) = if o =? o' then b else obj o s.
  Proof. unfold put. rewrite obj_aset. now destruct s. Qed.

  (** ops that only change one object's bits *)
  Lemma put_ok s m o b f : inv s -> (forall o x, count x (position s) (obj o s) = m o x) ->
    (forall i, bget i b = true -> i < length (position s)) ->
    (forall x i, posOf x (position s) = Some i -> bget i b = f x) ->
    (forall x, posOf x (position s) = None -> f x = false) ->
    inv (put o b s) /\ forall o' x, count x (position (put o b s)) (obj o' (put o b s)) = update o f m o' x.
  Proof.
    intros [Hn Hi] Hm Hb Hf1 Hf2. split.
    - split; [exact Hn|]. intros o' i. rewrite obj_put. destruct (o' =? o); [apply Hb|apply Hi].
    - intros o' x. rewrite obj_put. unfold update. cbn [position put]. destruct (o' =? o).
      + rewrite count_eq. destruct (posOf x (position s)) eqn:E; [now apply Hf1|]. symmetry. now apply Hf2.
      + apply Hm.
  Qed.

  Lemma band_lt s a b i : inv s -> bget i (obj a s) && bget i b = true -> i < length (position s).
  Proof. intros [_ Hi] E. apply andb_true_iff in E as [E _]. eauto. Qed.

  Lemma step_ok c s m : inv s -> (forall o x, count x (position s) (obj o s) = m o x) ->
    exists s', step c s = Some s' /\ inv s' /\
      forall o x, count x (position s') (obj o s') = meaning c m o x.
  Proof.
    intros Hs Hm.
    assert (C1 : forall o x i, posOf x (position s) = Some i -> bget i (obj o s) = m o x).
    { intros o x i E. rewrite <- Hm, count_eq, E. reflexivity. }
    assert (C0 : forall o x, posOf x (position s) = None -> m o x = false).
    { intros o x E. rewrite <- Hm, count_eq, E. reflexivity. }
    pose proof (proj2 Hs) as Hi.
    destruct c; cbn [step meaning].
    - eexists. split; [reflexivity|]. apply put_ok; auto; intros; rewrite bget_repeat in *; auto; discriminate.
    - eexists. split; [reflexivity|]. apply put_ok; eauto.
    - (* Insert *)
      unfold insert. destruct (posOf x (position s)) as [i|] eqn:Ex.
      + pose proof (posOf_lt _ _ _ Ex) as Hlt.
        set (b := if length (obj o s) <=? i then resize (i + 1) (obj o s) else obj o s).
        assert (Hb : i < length b /\ forall j, bget j b = bget j (obj o s)).
        { unfold b. destruct (Nat.leb_spec (length (obj o s)) i).
          - rewrite length_resize by lia. split; [lia|]. intros j. apply bget_resize. lia.
          - auto. }
        destruct Hb as [Hb1 Hb2]. destruct (bput_ok true b i Hb1) as (b' & E & _ & G). rewrite E. cbn [option_map].
        eexists. split; [reflexivity|].
        replace (mkState (position s) (aset o b' (objs s))) with (put o b' s) by reflexivity.
        apply put_ok; auto.
        * intros j. rewrite G. destruct (Nat.eqb_spec j i) as [->|]; auto. rewrite Hb2. apply Hi.
        * intros y j Ey. rewrite G. destruct (Nat.eqb_spec j i) as [->|Hne].
          -- apply posOf_Some in Ey, Ex. assert (y = x) by congruence. subst. now rewrite eqb_refl.
          -- rewrite Hb2. assert (eqb y x = false) as ->.
             { apply eqb_false. intros ->. congruence. }
             cbn. auto.
        * intros y Ey. assert (eqb y x = false) as ->.
          { apply eqb_false. intros ->. congruence. }
          cbn. auto.
      + set (p' := position s ++ [x]).
        assert (Lp : length p' = length (position s) + 1) by (unfold p'; rewrite app_length; reflexivity).
        set (b := if length (obj o s) <=? length p' then resize (length p') (obj o s) else obj o s).
        assert (Hb : length (position s) < length b /\ forall j, bget j b = bget j (obj o s)).
        { unfold b. destruct (Nat.leb_spec (length (obj o s)) (length p')).
          - rewrite length_resize by lia. split; [lia|]. intros j. apply bget_resize. lia.
          - split; [lia|auto]. }
        destruct Hb as [Hb1 Hb2]. destruct (bput_ok true b _ Hb1) as (b' & E & _ & G). rewrite E. cbn [option_map].
        eexists. split; [reflexivity|].
        destruct Hs as [Hn _]. apply posOf_None in Ex as Hx.
        split; [split|].
        * cbn. unfold p'. apply NoDup_app_single; auto.
        * intros o' j. rewrite obj_aset. cbn [position]. destruct (o' =? o).
          -- rewrite G. destruct (Nat.eqb_spec j (length (position s))) as [->|]; [lia|].
             rewrite Hb2. intros Hj. apply Hi in Hj. lia.
          -- intros Hj. enough (j < length (position s)) by lia. apply (Hi o' j). now destruct s.
        * intros o' y. rewrite obj_aset. cbn [position]. unfold update, p'. rewrite count_eq, posOf_app.
          destruct (posOf y (position s)) as [j|] eqn:Ey.
          -- pose proof (posOf_lt _ _ _ Ey). destruct (o' =? o).
             ++ rewrite G. assert (j =? length (position s) = false) as -> by (apply Nat.eqb_neq; lia).
                rewrite Hb2. assert (eqb y x = false) as -> by (apply eqb_false; intros ->; congruence). cbn. auto.
             ++ rewrite <- (C1 o' y j Ey). now destruct s.
          -- destruct (eqb y x) eqn:Eyx.
             ++ apply eqb_eq in Eyx as ->. destruct (o' =? o).
                ** now rewrite G, Nat.eqb_refl, eqb_refl.
                ** rewrite (C0 o' x Ey). destruct (bget _ _) eqn:Ebg; auto.
                   assert (length (position s) < length (position s)); [|lia].
                   apply (Hi o'). now destruct s.
             ++ destruct (o' =? o); cbv beta; rewrite ?Eyx; symmetry; cbn [orb]; auto.
    - eexists. split; [reflexivity|]. apply put_ok; auto.
      + intros i. rewrite bget_bor, orb_true_iff. intros [E|E]; eauto.
      + intros x i E. now rewrite bget_bor, (C1 o x i E), (C1 a x i E).
      + intros x E. now rewrite (C0 o x E), (C0 a x E).
    - (* Erase *)
      unfold erase. destruct (posOf x (position s)) as [i|] eqn:Ex.
      + destruct (Nat.ltb_spec i (length (obj o s))) as [Hlt|Hge].
        * destruct (bput_ok false (obj o s) i Hlt) as (b' & E & _ & G). rewrite E. cbn [option_map].
          eexists. split; [reflexivity|]. apply put_ok; auto.
          -- intros j. rewrite G. destruct (j =? i); [discriminate|]. apply Hi.
          -- intros y j Ey. rewrite G. destruct (Nat.eqb_spec j i) as [->|Hne].
             ++ apply posOf_Some in Ey, Ex. assert (y = x) by congruence. subst. now rewrite eqb_refl.
             ++ assert (eqb y x = false) as -> by (apply eqb_false; intros ->; congruence). cbn. auto.
          -- intros y Ey. rewrite (C0 o y Ey). apply andb_false_r.
        * cbn [option_map]. eexists. split; [reflexivity|]. apply put_ok; eauto.
          -- intros y j Ey. rewrite (C1 o y j Ey). destruct (eqb y x) eqn:Eyx; auto. cbn.
             apply eqb_eq in Eyx as ->. rewrite <- (C1 o x j Ey). apply bget_over. congruence.
          -- intros y Ey. rewrite (C0 o y Ey). apply andb_false_r.
      + cbn [option_map]. eexists. split; [reflexivity|]. apply put_ok; eauto.
        * intros y j Ey. rewrite (C1 o y j Ey). assert (eqb y x = false) as -> by (apply eqb_false; intros ->; congruence).
          reflexivity.
        * intros y Ey. rewrite (C0 o y Ey). apply andb_false_r.
    - eexists. split; [reflexivity|]. destruct (Nat.eqb_spec o a) as [->|Hne].
      + apply put_ok; auto.
        * intros i. rewrite bget_nil. discriminate.
        * intros x i E. rewrite bget_nil. now rewrite andb_negb_r.
        * intros x E. now rewrite andb_negb_r.
      + apply put_ok; auto.
        * intros i. rewrite bget_bminus, andb_true_iff. intros [E _]. eauto.
        * intros x i E. now rewrite bget_bminus, (C1 o x i E), (C1 a x i E).
        * intros x E. now rewrite (C0 o x E).
    - eexists. split; [reflexivity|]. apply put_ok; auto; intros; rewrite bget_nil in *; auto; discriminate.
    - eexists. split; [reflexivity|]. apply put_ok; auto.
      + intros i. rewrite bget_band. apply band_lt; auto.
      + intros x i E. now rewrite bget_band, (C1 o x i E), (C1 a x i E).
      + intros x E. now rewrite (C0 o x E).
    - eexists. split; [reflexivity|]. assert (G : forall i, bget i (setUnion (obj a s) (obj b s)) = bget i (obj a s) || bget i (obj b s)).
      { intros i. unfold setUnion. destruct (_ <? _); rewrite bget_bor; auto using orb_comm. }
      apply put_ok; auto.
      + intros i. rewrite G, orb_true_iff. intros [E|E]; eauto.
      + intros x i E. now rewrite G, (C1 a x i E), (C1 b x i E).
      + intros x E. now rewrite (C0 a x E), (C0 b x E).
    - eexists. split; [reflexivity|]. assert (G : forall i, bget i (setIntersect (obj a s) (obj b s)) = bget i (obj a s) && bget i (obj b s)).
      { intros i. unfold setIntersect. destruct (_ <? _); rewrite bget_band; auto using andb_comm. }
      apply put_ok; auto.
      + intros i. rewrite G. apply band_lt; auto.
      + intros x i E. now rewrite G, (C1 a x i E), (C1 b x i E).
      + intros x E. now rewrite (C0 a x E).
  Qed.

  Lemma run_ok cs : forall s m, inv s -> (forall o x, count x (position s) (obj o s) = m o x) ->
    exists s', run cs s = Some s' /\ inv s' /\
      forall o x, count x (position s') (obj o s') = fold_left (fun m c => meaning c m) cs m o x.
  Proof.
    induction cs as [|c cs IH]; intros s m Hs Hm; cbn [run fold_left]; [eauto|].
    destruct (step_ok c s m Hs Hm) as (s' & -> & Hs' & Hm'). apply IH; auto.
  Qed.

  Lemma run_init cs : exists s, run cs init = Some s /\ inv s /\
    forall o x, count x (position s) (obj o s) = meaningAll cs o x.
  Proof. apply run_ok; [apply inv_init|reflexivity]. Qed.

  Lemma count_nth p b x : NoDup p ->
    (count x p b = true <-> exists i, nth_error p i = Some x /\ bget i b = true).
  Proof.
    intros Hn. rewrite count_eq. split.
    - destruct (posOf x p) as [i|] eqn:E; [|discriminate]. intros Hb. exists i. split; auto. now apply posOf_Some.
    - intros (i & E & Hb). now rewrite (posOf_nth x p i Hn E).
  Qed.

  (** reading *)
  Lemma bits_of_counts p a b : NoDup p ->
    (forall i, bget i a = true -> i < length p) -> (forall i, bget i b = true -> i < length p) ->
    ((forall i, bget i a = true -> bget i b = true) <-> (forall x, count x p a = true -> count x p b = true)).
  Proof.
    intros Hn Ha Hb. split.
    - intros Hs x. rewrite !count_nth by auto. intros (i & E & Hi). eauto.
    - intros Hs i Hi. destruct (nth_error p i) as [x|] eqn:E.
      + assert (Hx : count x p a = true) by (apply count_nth; eauto).
        apply Hs, count_nth in Hx as (j & Ej & Hj); auto.
        assert (i = j) by (eapply nth_inj; eauto). congruence.
      + apply nth_error_None in E. apply Ha in Hi. lia.
  Qed.

  Lemma eq_counts p a b : NoDup p ->
    (forall i, bget i a = true -> i < length p) -> (forall i, bget i b = true -> i < length p) ->
    (bvsEq a b = true <-> forall x, count x p a = count x p b).
  Proof.
    intros Hn Ha Hb. rewrite bvsEq_bits. split.
    - intros E x. apply eq_true_iff_eq.
      split; apply bits_of_counts; auto; intros i; rewrite E; auto.
    - intros E i. apply eq_true_iff_eq.
      split; revert i; apply bits_of_counts with (p := p); auto; intros x; rewrite E; auto.
  Qed.

  Lemma includes_counts p a b : NoDup p ->
    (forall i, bget i a = true -> i < length p) -> (forall i, bget i b = true -> i < length p) ->
    (includes a b = true <-> forall x, count x p b = true -> count x p a = true).
  Proof.
    intros Hn Ha Hb. rewrite <- bits_of_counts by auto. unfold includes.
    rewrite negb_true_iff, <- not_true_iff_false, btest_true. split.
    - intros Hnt i Hi. destruct (bget i a) eqn:E; auto. exfalso. apply Hnt. eauto.
    - intros Hs (i & Hi & Hj). rewrite (Hs i Hi) in Hj. discriminate.
  Qed.

  Lemma none_counts p b : NoDup p -> (forall i, bget i b = true -> i < length p) ->
    (bnone b = true <-> forall x, count x p b = false).
  Proof.
    intros Hn Hb. rewrite bnone_true. split.
    - intros E x. apply not_true_iff_false. rewrite count_nth by auto. intros (i & _ & Hi). congruence.
    - intros E i. destruct (bget i b) eqn:Ei; auto. exfalso.
      destruct (nth_error p i) as [x|] eqn:Ex.
      + specialize (E x). assert (count x p b = true) by (apply count_nth; eauto). congruence.
      + apply nth_error_None in Ex. apply Hb in Ei. lia.
  Qed.

  (** number of elements *)
  Fixpoint idxs (k : nat) (b : bits) : list nat :=
    match b with
    | [] => []
    | true :: b' => k :: idxs (S k) b'
    | false :: b' => idxs (S k) b'
    end.
  Lemma idxs_length b : forall k, length (idxs k b) = bcount b.
  Proof. unfold bcount. induction b as [|[] b IH]; intros k; cbn; auto. Qed.
  Lemma idxs_In b : forall k i, In i (idxs k b) <-> k <= i /\ bget (i - k) b = true.
  Proof.
    induction b as [|x b IH]; intros k i.
    - rewrite bget_nil. cbn. split; [tauto|]. intros [_ E]. discriminate.
    - assert (Hc : In i (idxs (S k) b) <-> k < i /\ bget (i - k) (x :: b) = true).
      { rewrite IH. split; intros [Hl E]; (split; [lia|]).
        - replace (i - k) with (S (i - S k)) by lia. exact E.
        - replace (i - k) with (S (i - S k)) in E by lia. exact E. }
      destruct x; cbn [idxs In]; rewrite Hc.
      + split.
        * intros [<-|[Hl E]]; [rewrite Nat.sub_diag; auto|split; [lia|auto]].
        * intros [Hl E]. destruct (Nat.eq_dec k i); [auto|]. right. split; [lia|auto].
      + split.
        * intros [Hl E]; split; [lia|auto].
        * intros [Hl E]. split; auto. destruct (Nat.eq_dec k i) as [->|]; [|lia].
          rewrite Nat.sub_diag in E. discriminate.
  Qed.
  Lemma idxs_NoDup b : forall k, NoDup (idxs k b).
  Proof.
    induction b as [|[] b IH]; intros k; cbn; [constructor| |apply IH].
    constructor; auto. rewrite idxs_In. lia.
  Qed.

  Lemma NoDup_map_inj_on {A B} (f : A -> B) (l : list A) : NoDup l ->
    (forall x y : A, In x l -> In y l -> f x = f y -> x = y) -> NoDup (map f l).
  Proof.
    induction 1 as [|x l Hx Hl IH]; intros Hf; cbn; [constructor|]. constructor.
    - rewrite in_map_iff. intros (y & E & Hy). apply Hx. rewrite (Hf x y); cbn; auto.
    - apply IH. intros; apply Hf; cbn; auto.
  Qed.

  Lemma size_lists p b l : NoDup p -> (forall i, bget i b = true -> i < length p) ->
    lists l (fun x => count x p b) -> bcount b = length l.
  Proof.
    intros Hn Hb [Hl Hin]. rewrite <- (idxs_length b 0).
    set (ix := fun x => match posOf x p with Some i => i | None => 0 end).
    rewrite <- (map_length ix l). apply Permutation_length. apply NoDup_Permutation.
    - apply idxs_NoDup.
    - apply NoDup_map_inj_on; auto. intros x y Hx Hy E.
      apply Hin in Hx, Hy. rewrite count_eq in Hx, Hy. unfold ix in E.
      destruct (posOf x p) as [i|] eqn:Ex; [|discriminate]. destruct (posOf y p) as [j|] eqn:Ey; [|discriminate].
      subst. apply posOf_Some in Ex, Ey. congruence.
    - intros i. rewrite idxs_In, Nat.sub_0_r, in_map_iff. split.
      + intros [_ Hi]. destruct (nth_error p i) as [x|] eqn:Ex.
        * exists x. pose proof (posOf_nth _ _ _ Hn Ex) as Hp. split; [unfold ix; now rewrite Hp|].
          apply Hin, count_nth; eauto.
        * apply nth_error_None in Ex. apply Hb in Hi. lia.
      + intros (x & Hx & Hi). apply Hin in Hi. rewrite count_eq in Hi. unfold ix in Hx.
        destruct (posOf x p); [|discriminate]. subst. split; [lia|auto].
  Qed.

  (** iteration *)
  Definition grows (body : T -> list T -> list T) : Prop :=
    forall x q, NoDup q -> NoDup (body x q) /\ exists r, body x q = q ++ r.

  Lemma rightFind_Some p i j : rightFind p i = Some j <-> i = j /\ i < length p.
  Proof.
    unfold rightFind. destruct (Nat.ltb_spec i (length p)); split.
    - intros [= <-]. auto.
    - intros [<- _]. auto.
    - discriminate.
    - intros [_ ?]. lia.
  Qed.

  Lemma loop_ok body b stop : grows body -> forall fuel p i, NoDup p ->
    (forall i, bget i b = true -> i < length p) ->
    stop = rightFind p (length b) ->
    (length b < length p \/ forall x q, body x q = q) ->
    bget i b = true -> length b - i < fuel ->
    exists l, loop fuel body p b (Some i) stop = Some l /\ NoDup l /\
      forall x, In x l <-> exists j, i <= j /\ bget j b = true /\ nth_error p j = Some x.
  Proof.
    intros Hg. induction fuel as [|fuel IH]; intros p i Hn Hb Hs Hc Hi Hf; [lia|].
    cbn [loop]. pose proof (bget_lt _ _ Hi) as Hil.
    assert (eqb (Some i) stop = false) as ->.
    { apply eqb_false. intros E. rewrite Hs in E. symmetry in E. apply rightFind_Some in E. lia. }
    destruct (nth_error p i) as [x|] eqn:Ex; [|apply nth_error_None in Ex; apply Hb in Hi; lia].
    destruct (Hg x p Hn) as (Hn' & r & Hr). unfold next.
    destruct (Nat.ltb_spec (length b) (i + 1)); [lia|].
    assert (Hstop : stop = rightFind (body x p) (length b)).
    { rewrite Hs. destruct Hc as [Hc|Hc]; [|now rewrite Hc].
      unfold rightFind. rewrite Hr, app_length.
      destruct (Nat.ltb_spec (length b) (length p)); [|lia].
      destruct (Nat.ltb_spec (length b) (length p + length r)); [auto|lia]. }
    assert (Hlen : length p <= length (body x p)) by (rewrite Hr, app_length; lia).
    assert (Hnth : forall j, bget j b = true -> nth_error (body x p) j = nth_error p j).
    { intros j Hj. rewrite Hr. apply nth_error_app1. auto. }
    destruct (find_first_in (i + 1) (length b) b) as [j|] eqn:Ej.
    - apply find_first_in_Some in Ej as (Hj1 & Hj2 & Hj3).
      assert (rightFind (body x p) j = Some j) as ->.
      { apply rightFind_Some. split; auto. specialize (Hb j Hj2). lia. }
      destruct (IH (body x p) j) as (l & El & Hnl & Hl); auto.
      { intros k Hk. specialize (Hb k Hk). lia. }
      { destruct Hc; [left; lia|auto]. }
      { lia. }
      rewrite El. exists (x :: l). split; [reflexivity|].
      assert (Hl' : forall y, In y l <-> exists k, j <= k /\ bget k b = true /\ nth_error p k = Some y).
      { intros y. rewrite Hl. split; intros (k & K1 & K2 & K3); exists k; repeat split; auto.
        - now rewrite <- Hnth.
        - now rewrite Hnth. }
      split.
      + constructor; auto. rewrite Hl'. intros (k & K1 & K2 & K3).
        assert (i = k) by exact (nth_inj p i k x Hn Ex K3). lia.
      + intros y. cbn [In]. rewrite Hl'. split.
        * intros [<-|(k & K1 & K2 & K3)]; [exists i; auto|exists k; split; [lia|auto]].
        * intros (k & K1 & K2 & K3). destruct (Nat.eq_dec i k) as [->|]; [left; congruence|].
          right. exists k. split; [|auto]. destruct (le_lt_dec j k); auto.
          rewrite Hj3 in K2 by lia. discriminate.
    - rewrite find_first_in_None in Ej. rewrite <- Hstop.
      assert (exists fuel', fuel = S fuel') as [fuel' ->] by (exists (fuel - 1); lia).
      cbn [loop]. rewrite eqb_refl. exists [x]. split; [reflexivity|]. split.
      + constructor; [intros []|constructor].
      + intros y. cbn [In]. split.
        * intros [<-|[]]. exists i. auto.
        * intros (k & K1 & K2 & K3). left. destruct (Nat.eq_dec i k) as [->|]; [congruence|].
          rewrite Ej in K2; [discriminate|]. apply bget_lt in K2. lia.
  Qed.

  Lemma iterate_ok body p b : grows body -> NoDup p ->
    (forall i, bget i b = true -> i < length p) ->
    (length b < length p \/ forall x q, body x q = q) ->
    exists l, iterate body p b = Some l /\ lists l (fun x => count x p b).
  Proof.
    intros Hg Hn Hb Hc. unfold iterate, begin, end_.
    destruct (find_first b) as [i|] eqn:E.
    - apply find_first_Some in E as [Hi Hj].
      assert (rightFind p i = Some i) as -> by (apply rightFind_Some; auto).
      destruct (loop_ok body b (rightFind p (length b)) Hg (length b + 1) p i) as (l & El & Hnl & Hl); auto; [lia|].
      exists l. split; auto. split; auto. intros x. rewrite Hl, count_nth by auto. split.
      + intros (j & _ & A & B). eauto.
      + intros (j & A & B). exists j. split; auto. destruct (le_lt_dec i j); auto.
        rewrite Hj in B by auto. discriminate.
    - rewrite find_first_None in E. rewrite Nat.add_1_r. cbn [loop]. rewrite eqb_refl.
      exists []. split; [reflexivity|]. split; [constructor|]. intros x. cbn [In].
      rewrite count_nth by auto. split; [tauto|]. intros (j & _ & Hj). congruence.
  Qed.
End P.
