(** C41: the generic helpers. *)
From Coq Require Import String Ascii List Bool Arith NArith ZArith Lia.
From Verif Require Import Assoc UtilitiesModel UtilitiesSpec UtilitiesProofs.
Import ListNotations.
Open Scope nat_scope.

(** computePowerSet: all subsets, each once, for 1 to 31 elements *)
Theorem C41_power_set_partial : forall A (eqd : EqDec A) (s : list A), NoDup s -> s <> [] -> length s <= 31 ->
  exists P, computePowerSet s = Some P /\ NoDup P /\ forall x, In x P <-> exists p, x = filter p s.
Proof. intros. apply power_ok; auto. Qed.
Print Assumptions C41_power_set_partial.
Example C41_power_set_case : computePowerSet [7;8;9] = Some [[];[7];[8];[7;8];[9];[7;9];[8;9];[7;8;9]].
Proof. reflexivity. Qed.
(** the power set of the empty set lacks the empty set; from 32 elements on the shift is undefined *)
Theorem C41_power_set_empty_refuted : computePowerSet (@nil nat) = Some [] /\ (exists p, @nil nat = filter p []).
Proof. split; [reflexivity|]. exists (fun _ => true). reflexivity. Qed.
Print Assumptions C41_power_set_empty_refuted.
Theorem C41_power_set_shift_refuted : forall A (eqd : EqDec A) (s : list A), 32 <= length s -> computePowerSet s = None.
Proof.
  intros A eqd s L. unfold computePowerSet, shiftBound. rewrite (proj2 (Nat.leb_gt (length s) 30) ltac:(lia)), (proj2 (Nat.eqb_neq (length s) 31) ltac:(lia)). reflexivity.
Qed.
Print Assumptions C41_power_set_shift_refuted.

(** remove_by_index with random-access iterators removes exactly the given positions *)
Theorem C41_remove_by_index : forall A (l : list A) idx, increasing 0 idx (length l) -> eraseByIndex l idx = Some (without idx l).
Proof. intros. apply erase_ok; auto. Qed.
Print Assumptions C41_remove_by_index.
Example C41_remove_case : increasing 0 [0;2;3;5] (length [10;11;12;13;14;15;16]) /\ eraseByIndex [10;11;12;13;14;15;16] [0;2;3;5] = Some [11;14;16].
Proof. cbn. repeat split; lia. Qed.
(** the bounds check of line 222 does not cover the first index nor consecutive ones *)
Theorem C41_remove_out_of_range_refuted : eraseByIndex [10;11;12] [3] = None /\ eraseByIndex [10;11;12] [2;3] = None /\ eraseByIndex [10;11;12] [0;4] = Some [11;12].
Proof. repeat split. Qed.
Print Assumptions C41_remove_out_of_range_refuted.

(** the version for forward iterators is right for one index ... *)
Theorem C41_remove_forward_partial : forall A (l : list A) i, i < length l -> eraseByIndexFwd l [i] = Some (without [i] l).
Proof. intros. apply eraseFwd_single; auto. Qed.
Print Assumptions C41_remove_forward_partial.
(** ... and wrong for two *)
Theorem C41_remove_forward_refuted : exists idx l, increasing 0 idx (length l) /\ eraseByIndexFwd l idx = Some [10;12;13] /\ without idx l = [10;13].
Proof. exists [1;2], [10;11;12;13]. cbn. repeat split; lia. Qed.
Print Assumptions C41_remove_forward_refuted.

(** both versions of intersectWith compute the intersection, in place *)
Theorem C41_intersect : forall A (eqd : EqDec A) (dest src : list A),
  (forall x, In x (intersectCollect dest src) <-> In x dest /\ In x src) /\ intersectErase dest src = intersectCollect dest src
  /\ (NoDup dest -> NoDup (intersectErase dest src)).
Proof.
  intros. rewrite intersectCollect_filter, intersectErase_filter. split; [|split; [reflexivity|apply NoDup_filter]].
  intro x. rewrite filter_In, in_mem. tauto.
Qed.
Print Assumptions C41_intersect.
Example C41_intersect_case : intersectCollect [1;2;3;4] [4;2;9] = [2;4] /\ intersectErase [1;2;3;4] [4;2;9] = [2;4].
Proof. split; reflexivity. Qed.

(** StringIDLess is a strict weak order ... ([s1] etc.: whether the arguments are the same object) *)
Theorem C41_string_id_order : forall a b c s1 s2 s3 s4 s5 s6,
  (s1 = true -> a = b) -> (s2 = true -> b = c) -> (s3 = true -> a = c) -> (s4 = true -> b = a) -> (s5 = true -> c = b) -> (s6 = true -> c = a) ->
  (forall s, stringIDLess s a a = false)
  /\ (stringIDLess s1 a b = true -> stringIDLess s2 b c = true -> stringIDLess s3 a c = true)
  /\ (stringIDLess s1 a b = false -> stringIDLess s4 b a = false -> stringIDLess s2 b c = false -> stringIDLess s5 c b = false ->
      stringIDLess s3 a c = false /\ stringIDLess s6 c a = false).
Proof.
  intros a b c s1 s2 s3 s4 s5 s6 H1 H2 H3 H4 H5 H6.
  assert (F : forall s x y, (s = true -> x = y) -> (stringIDLess s x y = false <-> ~ keyLt (key x) (key y))).
  { intros s x y Hs. rewrite <- (less_key s x y Hs). destruct (stringIDLess s x y); intuition discriminate. }
  split; [intro s; apply (F s a a (fun _ => eq_refl)); destruct (key a); cbn; lia|].
  rewrite !(F _ _ _ H1), !(F _ _ _ H2), !(F _ _ _ H3), !(F _ _ _ H4), !(F _ _ _ H5), !(F _ _ _ H6), !(less_key _ _ _ H1), !(less_key _ _ _ H2), !(less_key _ _ _ H3).
  destruct (key a), (key b), (key c); cbn; split; intuition lia.
Qed.
Print Assumptions C41_string_id_order.
(** ... that orders the decimal ids below 2^63 by value, and separates them *)
Theorem C41_string_id_separates_partial : forall ds es, canonical ds -> canonical es -> (value ds <= longMax)%Z -> (value es <= longMax)%Z ->
  (stringIDLess false (numeral ds) (numeral es) = true <-> (value ds < value es)%Z)
  /\ (numeral ds <> numeral es -> stringIDLess false (numeral ds) (numeral es) = true \/ stringIDLess false (numeral es) (numeral ds) = true).
Proof.
  intros ds es Cd Ce Vd Ve.
  assert (E : forall xs, canonical xs -> (value xs <= longMax)%Z -> key (numeral xs) = Some (value xs)).
  { intros xs C V. unfold key. rewrite strtol_numeral by exact C. f_equal. pose proof (value_range xs (proj1 C)). unfold clampLong, longMin, longMax in *. lia. }
  rewrite !less_key by discriminate. rewrite (E ds Cd Vd), (E es Ce Ve). cbn [keyLt]. split; [reflexivity|].
  intro Ne. destruct (Z.lt_trichotomy (value ds) (value es)) as [L|[L|L]]; [auto| |auto]. exfalso. apply Ne. f_equal. apply value_inj; auto.
Qed.
Print Assumptions C41_string_id_separates_partial.
Example C41_string_id_case : canonical [4;2] /\ canonical [1;0;0] /\ stringIDLess false "42" "100" = true /\ numeral [4;2] = "42"%string.
Proof. repeat split; cbn; intuition (subst; lia). Qed.
(** ids of function arguments are not separated: line 105 tests the wrong string *)
Theorem C41_string_id_separates_refuted : stringIDLess false "main.0" "main.1" = false /\ stringIDLess false "main.1" "main.0" = false /\ String.ltb "main.0" "main.1" = true.
Proof. repeat split. Qed.
Print Assumptions C41_string_id_separates_refuted.

(** isConstructor also takes members of a class named C1E for constructors *)
Theorem C41_constructor_name_refuted : isConstructor "_ZN3FooC2Ev" = true /\ isConstructor "_ZN3C1E3barEv" = true /\ isConstructor "_ZN3FooC3Ev" = false.
Proof. repeat split. Qed.
Print Assumptions C41_constructor_name_refuted.
