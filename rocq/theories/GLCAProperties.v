(** C28, C29: the value sets of the generalized linear constant analysis. *)
From Coq Require Import ZArith Bool String List Lia PeanoNat.
From Verif Require Import Assoc LatticeModel LCAModel LCASpec LCAProofs GLCAModel GLCASpec GLCAProofs.
Import ListNotations.
Local Open Scope Z_scope.

(** ** C28 *)
(** Every integer operation but subtraction computes what LLVM computes. *)
Theorem C28_element_operation_is_exact_partial : forall fop op w u v x, 1 <= w -> fits w u -> fits w v -> op <> Sub ->
  llvm w op u v = Some x -> performBinOp fop (IOp op) (EInt w u) (EInt w v) = Some (EInt w x).
Proof.
  intros fop op w u v x Hw Hu Hv Hop Hl. cbn [performBinOp cxx]. destruct op; cbn [llvm intOp] in *; rewrite ?Z.eqb_refl; cbn [andb];
    try congruence; try (injection Hl as <-; reflexivity);
    try (destruct (v =? 0); [discriminate|]; cbn [andb negb]; rewrite ?Z.eqb_refl;
         try (destruct ((signed w u =? - 2 ^ (w - 1)) && (signed w v =? -1)); [discriminate|]); injection Hl as <-; reflexivity).
  - destruct (w <=? v); [discriminate|]. injection Hl as <-. reflexivity.
  - destruct (w <=? v); [discriminate|]. injection Hl as <-. reflexivity.
  - destruct (Z.leb_spec w v); [discriminate|]. injection Hl as <-. rewrite Z.min_l by lia. reflexivity.
Qed.
Print Assumptions C28_element_operation_is_exact_partial.
Example C28_ex_srem : performBinOp (fun _ _ _ => None) (IOp SRem) (EInt 8 249) (EInt 8 4) = Some (EInt 8 253) /\
  llvm 8 SRem 249 4 = Some 253.
Proof. split; reflexivity. Qed.

(** Subtraction subtracts the left operand from itself. *)
Theorem C28_subtraction_is_zero : forall fop w u v, performBinOp fop (IOp Sub) (EInt w u) (EInt w v) = Some (EInt w 0).
Proof. intros. cbn [performBinOp cxx intOp]. rewrite Z.eqb_refl, Z.sub_diag. cbn [andb]. now rewrite Zmod_0_l. Qed.
Print Assumptions C28_subtraction_is_zero.
Theorem C28_subtraction_refuted : forall fop w, 1 <= w -> exists u v x, fits w u /\ fits w v /\
  llvm w Sub u v = Some x /\ performBinOp fop (IOp Sub) (EInt w u) (EInt w v) <> Some (EInt w x) /\
  performBinOp fop (IOp Sub) (EInt w u) (EInt w v) <> Some ETop.
Proof.
  intros fop w Hw. assert (2 <= 2 ^ w) by (change 2 with (2 ^ 1) at 1; apply Z.pow_le_mono_r; lia).
  exists 1, 0, 1. unfold fits. split; [lia|]. split; [lia|]. rewrite C28_subtraction_is_zero. split; [|split; discriminate].
  cbn. now rewrite Z.mod_small by lia.
Qed.
Print Assumptions C28_subtraction_refuted.

(** When an element operation is undefined. *)
Theorem C28_element_operation_undefined : forall fop op a b,
  performBinOp fop op a b = None <->
  exists w u w' v, a = EInt w u /\ b = EInt w' v /\
    ((w <> w' /\ cxx op <> Shl /\ cxx op <> LShr /\ cxx op <> AShr) \/
     (v = 0 /\ (cxx op = SDiv \/ cxx op = SRem \/ cxx op = UDiv \/ cxx op = URem))).
Proof.
  intros fop op a b. split.
  - intros E. destruct a as [|w u| |], b as [|w' v| |]; cbn [performBinOp] in E; try discriminate;
      try (destruct (cxx op); discriminate).
    exists w, u, w', v. split; auto. split; auto. destruct (Z.eqb_spec w w') as [->|Hw], (Z.eqb_spec v 0) as [->|Hv].
    + right. split; auto. destruct (cxx op); cbn [intOp] in E; rewrite ?Z.eqb_refl in E; cbn in E; auto; try discriminate;
        destruct (w' <=? 0); discriminate.
    + exfalso. destruct (cxx op); cbn [intOp] in E; rewrite ?Z.eqb_refl in E;
        try (destruct (Z.eqb_spec v 0); [congruence|]); cbn [andb negb] in E; try discriminate;
        destruct (w' <=? v); discriminate.
    + destruct (cxx op) eqn:Eo; auto; try (left; repeat split; auto; discriminate); cbn [intOp] in E; try discriminate;
        destruct (w <=? 0); discriminate.
    + left. split; auto. destruct (cxx op) eqn:Eo; repeat split; try discriminate; cbn [intOp] in E; try discriminate;
        destruct (w <=? v); discriminate.
  - intros (w & u & w' & v & -> & -> & [(Hw & H1 & H2 & H3)|(-> & H)]); cbn [performBinOp].
    + destruct (cxx op); cbn [intOp]; try congruence; replace (w =? w') with false by (symmetry; now apply Z.eqb_neq);
        rewrite andb_false_r; reflexivity.
    + destruct H as [->|[->|[->| ->]]]; reflexivity.
Qed.
Print Assumptions C28_element_operation_undefined.

Lemma bin_noFp fop op x y r : noFp x -> noFp y -> performBinOp fop op x y = Some r -> noFp r.
Proof.
  intros Hx Hy E. destruct x as [|w u| |], y as [|w' v| |]; cbn [performBinOp noFp] in *; try tauto; try (injection E as <-; exact I).
  - destruct (cxx op); cbn [intOp] in E;
      repeat match type of E with context [if ?c then _ else _] => destruct c end; try discriminate; injection E as <-; exact I.
  - destruct (cxx op); injection E as <-; exact I.
Qed.

(** Sets: {top}, or exactly the pairwise results, at most MaxSize of them. *)
Theorem C28_set_operation_is_pairwise : forall fop op M a b R, Forall noFp a -> Forall noFp b ->
  binSet same isTopEv ETop (performBinOp fop op) M a b = Some R ->
  R = [ETop] \/
  (NoDup R /\ (length R <= M)%nat /\ (forall z, In z R <-> exists x y, In x a /\ In y b /\ performBinOp fop op x y = Some z) /\
   forall x y, In x a -> In y b -> exists r, performBinOp fop op x y = Some r).
Proof.
  intros fop op M a b R Pa Pb E. assert (K : a = [] \/ b = [] \/ isTopValue isTopEv a || isTopValue isTopEv b = true \/
    binRows same ETop (performBinOp fop op) M [] a b = Some R).
  { unfold binSet in E. destruct a; auto. destruct b; auto. destruct (_ || _); auto. }
  destruct K as [->|[->|[K|K]]].
  - left. now injection E as <-.
  - left. destruct a; now injection E as <-.
  - left. unfold binSet in E. destruct a; [now injection E as <-|]. destruct b; [now injection E as <-|]. rewrite K in E. now injection E as <-.
  - destruct (binRows_ok same ETop noFp same_eq (performBinOp fop op) (bin_noFp fop op) M b a [] R Pa Pb) as [?|(N & L & I' & T)];
      auto using NoDup_nil; [cbn; lia|]. right. split; auto. split; auto. split; auto.
    intros z. rewrite I'. cbn. split; [intros [[]|?]|]; auto.
Qed.
Print Assumptions C28_set_operation_is_pairwise.

(** So the result stands for every concrete result. *)
Theorem C28_set_operation_is_sound_partial : forall fop op M a b R w u v x, 1 <= w -> op <> Sub -> Forall noFp a -> Forall noFp b ->
  binSet same isTopEv ETop (performBinOp fop (IOp op)) M a b = Some R ->
  fits w u -> fits w v -> denotes a w u -> denotes b w v -> llvm w op u v = Some x -> denotes R w x.
Proof.
  intros fop op M a b R w u v x Hw Hop Pa Pb E Hu Hv Da Db Hl.
  destruct (C28_set_operation_is_pairwise fop (IOp op) M a b R Pa Pb E) as [->|(_ & _ & I & _)]; [left; cbn; auto|].
  destruct Da as [Ta|Ia], Db as [Tb|Ib].
  - left. apply I. exists ETop, ETop. auto.
  - left. apply I. exists ETop, (EInt w v). auto.
  - left. apply I. exists (EInt w u), ETop. auto.
  - right. apply I. exists (EInt w u), (EInt w v). split; auto. split; auto.
    now apply C28_element_operation_is_exact_partial.
Qed.
Print Assumptions C28_set_operation_is_sound_partial.
Example C28_ex_sets : binSet same isTopEv ETop (performBinOp (fun _ _ _ => None) (IOp Mul)) 4 [EInt 8 3; EInt 8 5] [EInt 8 2; EInt 8 100]
  = Some [EInt 8 6; EInt 8 44; EInt 8 10; EInt 8 244] /\
  binSet same isTopEv ETop (performBinOp (fun _ _ _ => None) (IOp Mul)) 2 [EInt 8 3; EInt 8 5] [EInt 8 2; EInt 8 100] = Some [ETop].
Proof. split; vm_compute; reflexivity. Qed.

(** A set containing 0 as a possible divisor crashes the analysis, though the
    divisor need not be 0 in any execution. *)
Theorem C28_possible_zero_divisor_refuted : exists a b w u v x, denotes a w u /\ denotes b w v /\ llvm w SDiv u v = Some x /\
  forall fop M, binSet same isTopEv ETop (performBinOp fop (IOp SDiv)) (S M) a b = None.
Proof.
  exists [EInt 32 10], [EInt 32 2; EInt 32 0], 32, 10, 2, 5. unfold denotes. cbn [In]. repeat split; auto.
Qed.
Print Assumptions C28_possible_zero_divisor_refuted.

(** ** Casts *)
(** A cast never changes the width of the integer: *)
Theorem C28_cast_keeps_the_width : forall r bits w u w' x, typecastInt r bits (EInt w u) = Some (EInt w' x) -> w' = w.
Proof. intros r bits w u w' x. cbn. destruct (w <=? bits); [now intros [= <- _]|]. destruct (bits <? 31); [now intros [= <- _]|discriminate]. Qed.
Print Assumptions C28_cast_keeps_the_width.
(** so using a cast value together with one of its type is undefined, for every
    cast that changes the width; truncating to 31 or more bits already is. *)
Theorem C28_cast_then_add_refuted : forall fop r bits w u v, bits <> w ->
  match typecastInt r bits (EInt w u) with
  | None => 31 <= bits < w
  | Some y => performBinOp fop (IOp Add) y (EInt bits v) = None
  end.
Proof.
  intros fop r bits w u v Hn. cbn. destruct (Z.leb_spec w bits).
  - cbn. replace (w =? bits) with false by (symmetry; apply Z.eqb_neq; lia). reflexivity.
  - destruct (Z.ltb_spec bits 31); [|lia]. cbn. replace (w =? bits) with false by (symmetry; apply Z.eqb_neq; lia). reflexivity.
Qed.
Print Assumptions C28_cast_then_add_refuted.
(** Reported as a number, only sign extension is right. *)
Theorem C28_sign_extension_keeps_the_number : forall r bits w u, 1 <= w <= bits -> fits w u ->
  exists y, typecastInt r bits (EInt w u) = Some (EInt w y) /\ toSigned w y = signed bits (sext w bits u).
Proof.
  intros r bits w u Hw Hu. exists u. cbn. replace (w <=? bits) with true by (symmetry; apply Z.leb_le; lia). split; auto.
  symmetry. apply (signed_of_mod bits); [lia|]. apply (inRange_mono w); auto. apply signed_range; auto. lia.
Qed.
Print Assumptions C28_sign_extension_keeps_the_number.
Theorem C28_zero_extension_refuted : exists u y, fits 8 u /\ (forall r, typecastInt r 32 (EInt 8 u) = Some (EInt 8 y)) /\
  toSigned 8 y <> signed 32 (zext 8 32 u).
Proof. exists 255, 255. unfold fits. split; [lia|]. split; [reflexivity|]. cbn. discriminate. Qed.
Print Assumptions C28_zero_extension_refuted.
Theorem C28_truncation_refuted : exists u y, fits 32 u /\ (forall r, typecastInt r 8 (EInt 32 u) = Some (EInt 32 y)) /\
  toSigned 32 y <> signed 8 (trunc 32 8 u).
Proof. exists 255, 255. unfold fits. split; [lia|]. split; [reflexivity|]. cbn. discriminate. Qed.
Print Assumptions C28_truncation_refuted.

(** ** C29: for sets of integers, strings and top, and every MaxSize *)
Notation ejoin := (join same isTopEv ETop).
Theorem C29_join_is_the_least_upper_bound : forall M a b, Forall noFp a -> Forall noFp b -> bounded ETop M a -> bounded ETop M b ->
  bounded ETop M (ejoin M a b) /\ below ETop a (ejoin M a b) /\ below ETop b (ejoin M a b) /\
  forall c, bounded ETop M c -> below ETop a c -> below ETop b c -> below ETop (ejoin M a b) c.
Proof.
  intros M a b Pa Pb Ha Hb. split; [apply (join_bounded same isTopEv ETop noFp same_eq isTopEv_eq I M a b); auto|].
  destruct (join_upper same isTopEv ETop noFp same_eq isTopEv_eq M a b Pa Pb Ha Hb). split; auto. split; auto.
  intros c Hc. now apply (join_least same isTopEv ETop noFp same_eq isTopEv_eq).
Qed.
Print Assumptions C29_join_is_the_least_upper_bound.
Theorem C29_join_is_commutative : forall M a b, Forall noFp a -> Forall noFp b -> bounded ETop M a -> bounded ETop M b ->
  equiv (ejoin M a b) (ejoin M b a).
Proof. apply (join_comm same isTopEv ETop noFp same_eq isTopEv_eq). Qed.
Print Assumptions C29_join_is_commutative.
Theorem C29_join_is_associative : forall M a b c, Forall noFp a -> Forall noFp b -> Forall noFp c ->
  bounded ETop M a -> bounded ETop M b -> bounded ETop M c ->
  equiv (ejoin M (ejoin M a b) c) (ejoin M a (ejoin M b c)).
Proof. apply (join_assoc same isTopEv ETop noFp same_eq isTopEv_eq I). Qed.
Print Assumptions C29_join_is_associative.
Theorem C29_join_is_idempotent : forall M a, Forall noFp a -> bounded ETop M a -> equiv (ejoin M a a) a.
Proof.
  intros M a Pa Ha. destruct (join_ok same isTopEv ETop noFp same_eq isTopEv_eq M a a Pa Pa Ha Ha) as [(E & H)|(_ & _ & _ & _ & _ & I)].
  - assert (a = [ETop] \/ exists t, NoDup t /\ (M < length t)%nat /\ forall z, In z t -> In z a) as [->|(t & T1 & T2 & T3)].
    { destruct H as [?|[?|(t & T1 & T2 & T3)]]; auto. right. exists t. split; auto. split; auto. intros z Hz. apply T3 in Hz. tauto. }
    + rewrite E. intros z. tauto.
    + destruct Ha as [Na [->|La]]; [rewrite E; intros z; tauto|]. exfalso.
      assert (length t <= length a)%nat; [|lia]. now apply NoDup_incl_length.
  - intros z. rewrite I. tauto.
Qed.
Print Assumptions C29_join_is_idempotent.
Theorem C29_unit_and_absorbing : forall M a, Forall noFp a -> bounded ETop M a ->
  ejoin M a [] = a /\ equiv (ejoin M [] a) a /\ ejoin M a [ETop] = [ETop] /\ ejoin M [ETop] a = [ETop].
Proof.
  intros M a Pa Ha. assert (E : ejoin M a [] = a).
  { unfold join. cbn [insertAll isTopValue]. destruct (isTopValue isTopEv a) eqn:T; cbn; auto.
    apply (isTopValue_true isTopEv ETop isTopEv_eq) in T. now symmetry. }
  split; auto. split; [|split; [|reflexivity]].
  - rewrite <- E at 2. apply C29_join_is_commutative; auto. split; [constructor|right; cbn; lia].
  - unfold join. cbn. now rewrite orb_true_r.
Qed.
Print Assumptions C29_unit_and_absorbing.
Theorem C29_join_over_approximates : forall M a b w x, Forall noFp a -> Forall noFp b -> bounded ETop M a -> bounded ETop M b ->
  denotes a w x \/ denotes b w x -> denotes (ejoin M a b) w x.
Proof.
  intros M a b w x Pa Pb Ha Hb D. destruct (join_upper same isTopEv ETop noFp same_eq isTopEv_eq M a b Pa Pb Ha Hb) as [[E|E] [E'|E']];
    try (left; rewrite ?E, ?E'; cbn; auto; fail). unfold denotes in *. destruct D as [[D|D]|[D|D]]; auto.
Qed.
Print Assumptions C29_join_over_approximates.
Example C29_ex : ejoin 2 [EInt 32 1] [EInt 32 2; EInt 32 1] = [EInt 32 1; EInt 32 2] /\
  ejoin 2 [EInt 32 1] [EInt 32 2; EStr "a"] = [ETop] /\ bounded ETop 2 [EInt 32 2; EStr "a"] /\ Forall noFp [EInt 32 2; EStr "a"].
Proof.
  split; [reflexivity|]. split; [reflexivity|]. split; [|repeat constructor]. split; [|right; auto].
  constructor; [intros [?|[]]; discriminate|]. constructor; [intros []|constructor].
Qed.
(** operator< is the strict order of this lattice, compare is not: *)
Theorem C29_less_is_the_strict_order : forall a b, Forall noFp a -> Forall noFp b -> NoDup a -> NoDup b ->
  (evLess same ETop a b = true <-> below ETop a b /\ ~ equiv a b).
Proof. apply (evLess_ok same ETop noFp same_eq I). Qed.
Print Assumptions C29_less_is_the_strict_order.
Theorem C29_compare_refuted : exists a b, bounded ETop 2 a /\ bounded ETop 2 b /\ below ETop a b /\ compare same a b = Incomparable.
Proof.
  exists [EInt 32 1], [ETop]. assert (forall e, NoDup [e : ev]) by (intros; constructor; [intros []|constructor]).
  repeat split; auto; left; reflexivity.
Qed.
Print Assumptions C29_compare_refuted.

(** ** With floating-point values the laws fail: equality up to an epsilon is not
    transitive, and NaN is not equal to itself. *)
Theorem C29_associative_fp_refuted : exists a b c, bounded ETop 2 a /\ bounded ETop 2 b /\ bounded ETop 2 c /\
  setEqb same (ejoin 2 (ejoin 2 a b) c) (ejoin 2 a (ejoin 2 b c)) = false /\
  ejoin 2 (ejoin 2 a b) c = [EFp (Some 0); EFp (Some 12)] /\ ejoin 2 a (ejoin 2 b c) = [EFp (Some 0)].
Proof.
  exists [EFp (Some 0)], [EFp (Some 6)], [EFp (Some 12)].
  assert (forall e, NoDup [e : ev]) by (intros; constructor; [intros []|constructor]). unfold bounded. cbn [length].
  repeat split; auto; right; lia.
Qed.
Print Assumptions C29_associative_fp_refuted.
(** the third value is lost: it is not even near to an element of the result *)
Theorem C29_over_approximates_fp_refuted : exists a b x, bounded ETop 2 a /\ bounded ETop 2 b /\ In x b /\
  forall y, In y (ejoin 2 a b) -> y <> x.
Proof.
  exists [EFp (Some 0)], [EFp (Some 6)], (EFp (Some 6)).
  assert (forall e, NoDup [e : ev]) by (intros; constructor; [intros []|constructor]). unfold bounded. cbn [length].
  repeat split; auto; try (right; lia); [cbn; auto|]. intros y. cbn. intros [<-|[]]. discriminate.
Qed.
Print Assumptions C29_over_approximates_fp_refuted.
Theorem C29_idempotent_fp_refuted : exists a, bounded ETop 1 a /\ setEqb same (ejoin 1 a a) a = false /\ ejoin 1 a a = [ETop].
Proof.
  exists [EFp None]. split; [split; [constructor; [intros []|constructor]|right; auto]|]. split; reflexivity.
Qed.
Print Assumptions C29_idempotent_fp_refuted.
(** equal values with different hashes: 0.4999999 and 0.5 *)
Theorem C29_hash_fp_refuted : exists x y, evEqb x y = true /\ hashEqb x y = false.
Proof. exists (EFp (Some 4999999)), (EFp (Some 5000000)). split; reflexivity. Qed.
Print Assumptions C29_hash_fp_refuted.
