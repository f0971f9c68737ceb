(** Proofs about LCAModel. *)
From Coq Require Import ZArith Bool Lia.
From Verif Require Import Assoc LatticeModel LCAModel LCASpec.
Local Open Scope Z_scope.

Lemma pow_split w : 1 <= w -> 2 ^ w = 2 * 2 ^ (w - 1).
Proof. intros Hw. rewrite <- Z.pow_succ_r by lia. f_equal. lia. Qed.
Lemma pow_pos w : 0 <= w -> 0 < 2 ^ w.
Proof. intros. apply Z.pow_pos_nonneg; lia. Qed.

Section W.
  Context (w : Z) (Hw : 1 <= w).
  Let Hp := pow_split w Hw.
  Let Hq := pow_pos (w - 1) ltac:(lia).

  Lemma signed_range u : fits w u -> inRange w (signed w u).
  Proof. unfold fits, inRange, signed. intros. destruct (Z.ltb_spec u (2 ^ (w - 1))); lia. Qed.
  Lemma signed_mod u : fits w u -> signed w u mod 2 ^ w = u.
  Proof.
    unfold fits, signed. intros. destruct (Z.ltb_spec u (2 ^ (w - 1))); [apply Z.mod_small; lia|].
    replace (u - 2 ^ w) with (u + (-1) * 2 ^ w) by ring. rewrite Z_mod_plus_full. apply Z.mod_small. lia.
  Qed.
  Lemma fits_mod z : fits w (z mod 2 ^ w).
  Proof. apply Z.mod_pos_bound. lia. Qed.
  (** the signed value of a truncated number *)
  Lemma signed_of_mod s : inRange w s -> signed w (s mod 2 ^ w) = s.
  Proof.
    unfold inRange, signed. intros Hs. destruct (Z.neg_nonneg_cases s) as [Hn|Hn].
    - replace (s mod 2 ^ w) with (s + 2 ^ w).
      + destruct (Z.ltb_spec (s + 2 ^ w) (2 ^ (w - 1))); lia.
      + rewrite <- (Z.mod_small (s + 2 ^ w) (2 ^ w)) by lia. replace (s + 2 ^ w) with (s + 1 * 2 ^ w) by ring. apply Z_mod_plus_full.
    - rewrite Z.mod_small by lia. destruct (Z.ltb_spec s (2 ^ (w - 1))); lia.
  Qed.
  Lemma signed_of_mod_iff s : signed w (s mod 2 ^ w) = s <-> inRange w s.
  Proof. split; [intros <-; apply signed_range, fits_mod|apply signed_of_mod]. Qed.
  Lemma signed_eq_mod s u : fits w u -> inRange w s -> s mod 2 ^ w = u -> s = signed w u.
  Proof. intros Hu Hs <-. symmetry. now apply signed_of_mod. Qed.
  Lemma mod_signed2 (f : Z -> Z -> Z) u v :
    (forall a b, f a b mod 2 ^ w = f (a mod 2 ^ w) (b mod 2 ^ w) mod 2 ^ w) ->
    fits w u -> fits w v -> f u v mod 2 ^ w = f (signed w u) (signed w v) mod 2 ^ w.
  Proof. intros Hf Hu Hv. rewrite (Hf (signed w u)). rewrite !signed_mod; auto. Qed.

  (** bits of the signed value: the top bit is repeated *)
  Lemma signed_bits u n : fits w u -> 0 <= n -> Z.testbit (signed w u) n = Z.testbit u (Z.min n (w - 1)).
  Proof.
    intros Hu Hn. pose proof (signed_mod u Hu) as Hm. destruct (Z.lt_ge_cases n w) as [L|L].
    - replace (Z.min n (w - 1)) with n by lia. rewrite <- Hm at 2. rewrite Z.mod_pow2_bits_low by lia. reflexivity.
    - replace (Z.min n (w - 1)) with (w - 1) by lia.
      assert (T : Z.testbit u (w - 1) = (2 ^ (w - 1) <=? u)).
      { rewrite Z.testbit_odd, Z.shiftr_div_pow2 by lia. unfold fits in Hu. destruct (Z.leb_spec (2 ^ (w - 1)) u).
        - replace (u / 2 ^ (w - 1)) with 1; [reflexivity|]. apply (Z.div_unique _ _ 1 (u - 2 ^ (w - 1))); lia.
        - rewrite Z.div_small by lia. reflexivity. }
      rewrite T. unfold signed, fits in *. destruct (Z.ltb_spec u (2 ^ (w - 1))).
      + replace (2 ^ (w - 1) <=? u) with false by (symmetry; apply Z.leb_gt; lia).
        rewrite Z.testbit_odd, Z.shiftr_div_pow2 by lia. rewrite Z.div_small; [reflexivity|].
        split; [lia|]. apply Z.lt_le_trans with (2 ^ (w - 1)); [lia|]. apply Z.pow_le_mono_r; lia.
      + replace (2 ^ (w - 1) <=? u) with true by (symmetry; apply Z.leb_le; lia).
        rewrite Z.testbit_odd, Z.shiftr_div_pow2 by lia.
        assert (B : 2 ^ w <= 2 ^ n) by (apply Z.pow_le_mono_r; lia).
        replace ((u - 2 ^ w) / 2 ^ n) with (-1); [reflexivity|]. apply (Z.div_unique _ _ (-1) (u - 2 ^ w + 2 ^ n)); lia.
  Qed.
  Lemma fits_bits u : fits w u <-> 0 <= u /\ forall n, w <= n -> Z.testbit u n = false.
  Proof.
    unfold fits. split.
    - intros Hu. split; [lia|]. intros n Hn. rewrite Z.testbit_odd, Z.shiftr_div_pow2 by lia. rewrite Z.div_small; [reflexivity|].
      split; [lia|]. apply Z.lt_le_trans with (2 ^ w); [lia|]. apply Z.pow_le_mono_r; lia.
    - intros [H0 Hb]. split; auto. assert (E : u = u mod 2 ^ w).
      { apply Z.bits_inj'. intros n Hn. destruct (Z.lt_ge_cases n w).
        - now rewrite Z.mod_pow2_bits_low.
        - rewrite Z.mod_pow2_bits_high by lia. apply Hb. lia. }
      rewrite E. apply Z.mod_pos_bound. lia.
  Qed.
  Lemma signed_bitop (f : Z -> Z -> Z) (g : bool -> bool -> bool) :
    (forall a b n, 0 <= n -> Z.testbit (f a b) n = g (Z.testbit a n) (Z.testbit b n)) -> (forall a b, 0 <= a -> 0 <= b -> 0 <= f a b) -> g false false = false ->
    forall u v, fits w u -> fits w v -> fits w (f u v) /\ signed w (f u v) = f (signed w u) (signed w v).
  Proof.
    intros Hf Hn Hg u v Hu Hv.
    assert (Fu : fits w (f u v)).
    { apply fits_bits. apply fits_bits in Hu as [Hu Bu]. apply fits_bits in Hv as [Hv Bv]. split; auto. intros n L.
      rewrite Hf by lia. rewrite Bu, Bv; auto. }
    split; auto. apply Z.bits_inj'. intros n L. rewrite signed_bits, Hf, Hf, !signed_bits by (auto; lia). reflexivity.
  Qed.
  Lemma quot_range a b : inRange w a -> b <> 0 -> ~ (a = - 2 ^ (w - 1) /\ b = -1) -> inRange w (Z.quot a b).
  Proof.
    unfold inRange. intros Ha Hb Hn. set (m := 2 ^ (w - 1)) in *.
    assert (Hab : Z.abs (Z.quot a b) * Z.abs b <= Z.abs a).
    { rewrite <- Z.abs_mul. pose proof (Z.quot_rem a b Hb). pose proof (Z.rem_bound_abs a b Hb).
      destruct (Z.le_ge_cases 0 a) as [L|L].
      - pose proof (Z.rem_nonneg a b Hb L). assert (0 <= b * (a ÷ b)); [|lia]. pose proof (Z.mul_quot_le a b L Hb). lia.
      - pose proof (Z.rem_nonpos a b Hb L). pose proof (Z.mul_quot_ge a b L Hb). lia. }
    assert (Z.abs b = 1 \/ 2 <= Z.abs b) as [B|B] by lia.
    - assert (b = 1 \/ b = -1) as [-> | ->] by lia.
      + rewrite Z.quot_1_r. lia.
      + replace (a ÷ -1) with (- a) by (change (-1) with (- (1)); rewrite Z.quot_opp_r, Z.quot_1_r; lia). lia.
    - nia.
  Qed.
  Lemma rem_range a b : inRange w a -> inRange w b -> b <> 0 -> inRange w (Z.rem a b).
  Proof.
    unfold inRange. intros Ha Hb Hn. pose proof (Z.rem_bound_abs a b Hn). destruct (Z.le_ge_cases 0 a) as [L|L].
    - pose proof (Z.rem_nonneg a b Hn L). lia.
    - pose proof (Z.rem_nonpos a b Hn L). lia.
  Qed.
  Lemma signed_zero v : fits w v -> signed w v = 0 <-> v = 0.
  Proof. unfold fits, signed. intros. destruct (Z.ltb_spec v (2 ^ (w - 1))); lia. Qed.
  Lemma signed_nonneg u : fits w u -> 0 <= signed w u -> signed w u = u.
  Proof. unfold fits, signed. intros. destruct (Z.ltb_spec u (2 ^ (w - 1))); lia. Qed.
End W.
Lemma int64_ok z : int64 z = true <-> inRange 64 z.
Proof. unfold int64, inRange. rewrite andb_true_iff, Z.leb_le, Z.ltb_lt. reflexivity. Qed.
Lemma inRange_mono w w' s : 1 <= w <= w' -> inRange w s -> inRange w' s.
Proof. unfold inRange. intros Hw Hs. assert (2 ^ (w - 1) <= 2 ^ (w' - 1)) by (apply Z.pow_le_mono_r; lia). lia. Qed.
