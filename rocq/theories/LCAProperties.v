(** C27: constant folding of the linear constant analysis. *)
From Coq Require Import ZArith Bool Lia.
From Verif Require Import Assoc LatticeModel LCAModel LCASpec LCAProofs.
Local Open Scope Z_scope.

(** Where folding is exact: signed and bitwise operations at every width,
    addition, subtraction and multiplication unless they leave the range of the
    type, unsigned division of numbers whose top bit is not set. *)
Definition faithful (w : Z) (op : opcode) (u v : Z) : Prop :=
  match op with
  | Add => inRange w (signed w u + signed w v)
  | Sub => inRange w (signed w u - signed w v)
  | Mul => inRange w (signed w u * signed w v)
  | UDiv | URem => 0 <= signed w u /\ 0 <= signed w v
  | _ => True
  end.

Lemma execute_val op a b r : execute op (LVal a) (LVal b) = Ok (LVal r) ->
  match op with
  | Add => inRange 64 (a + b) /\ r = a + b
  | Sub => inRange 64 (a - b) /\ r = a - b
  | Mul => inRange 64 (a * b) /\ r = a * b
  | UDiv | SDiv => b <> 0 /\ ~ (a = - 2 ^ 63 /\ b = -1) /\ r = Z.quot a b
  | URem | SRem => b <> 0 /\ ~ (a = - 2 ^ 63 /\ b = -1) /\ r = Z.rem a b
  | And => r = Z.land a b
  | Or => r = Z.lor a b
  | Xor => r = Z.lxor a b
  | _ => False
  end.
Proof.
  destruct op; cbn [execute]; try (intros E; now injection E as <-); try (intros E; discriminate).
  - destruct (int64 (a + b)) eqn:E; intros Hr; [injection Hr as <-|discriminate]. split; auto. now apply int64_ok.
  - destruct (int64 (a - b)) eqn:E; intros Hr; [injection Hr as <-|discriminate]. split; auto. now apply int64_ok.
  - destruct (int64 (a * b)) eqn:E; intros Hr; [injection Hr as <-|discriminate]. split; auto. now apply int64_ok.
  - destruct ((a =? - 2 ^ 63) && (b =? -1)) eqn:E; [discriminate|]. destruct (Z.eqb_spec b 0); [discriminate|].
    intros Hr. injection Hr as <-. split; auto. split; auto. intros [-> ->]. discriminate.
  - destruct ((a =? - 2 ^ 63) && (b =? -1)) eqn:E; [discriminate|]. destruct (Z.eqb_spec b 0); [discriminate|].
    intros Hr. injection Hr as <-. split; auto. split; auto. intros [-> ->]. discriminate.
  - destruct (Z.eqb_spec b 0); [discriminate|]. destruct ((a =? - 2 ^ 63) && (b =? -1)) eqn:E; [discriminate|].
    intros Hr. injection Hr as <-. split; auto. split; auto. intros [-> ->]. discriminate.
  - destruct (Z.eqb_spec b 0); [discriminate|]. destruct ((a =? - 2 ^ 63) && (b =? -1)) eqn:E; [discriminate|].
    intros Hr. injection Hr as <-. split; auto. split; auto. intros [-> ->]. discriminate.
Qed.

(** A folded constant is the value LLVM computes. *)
Theorem C27_folded_constant_is_the_llvm_value_partial : forall w op u v r x,
  1 <= w <= 64 -> fits w u -> fits w v -> faithful w op u v ->
  execute op (LVal (signed w u)) (LVal (signed w v)) = Ok (LVal r) -> llvm w op u v = Some x -> r = signed w x.
Proof.
  intros w op u v r x Hw Hu Hv Hf He Hl. assert (W : 1 <= w) by lia. apply execute_val in He.
  pose proof (signed_range w W u Hu) as Ru. pose proof (signed_range w W v Hv) as Rv.
  pose proof (signed_zero w W v Hv) as Z0. destruct op; cbn [llvm faithful] in *.
  - destruct He as [_ ->]. injection Hl as <-. rewrite (mod_signed2 w Z.add) by (auto; intros; apply Zplus_mod).
    symmetry. now apply signed_of_mod.
  - destruct He as [_ ->]. injection Hl as <-. rewrite (mod_signed2 w Z.sub) by (auto; intros; apply Zminus_mod).
    symmetry. now apply signed_of_mod.
  - destruct He as [_ ->]. injection Hl as <-. rewrite (mod_signed2 w Z.mul) by (auto; intros; apply Zmult_mod).
    symmetry. now apply signed_of_mod.
  - destruct He as (Hb & _ & ->). destruct Hf as [Nu Nv]. destruct (Z.eqb_spec v 0); [discriminate|]. injection Hl as <-.
    rewrite !(signed_nonneg w) by auto. rewrite (signed_nonneg w u Hu Nu) in Ru. unfold fits in *.
    rewrite Z.quot_div_nonneg by lia. unfold signed. unfold inRange in Ru.
    assert (u / v <= u) by (apply Z.div_le_upper_bound; nia). destruct (Z.ltb_spec (u / v) (2 ^ (w - 1))); lia.
  - destruct He as (Hb & _ & ->). destruct (Z.eqb_spec v 0); [discriminate|].
    destruct ((signed w u =? - 2 ^ (w - 1)) && (signed w v =? -1)) eqn:E; [discriminate|]. injection Hl as <-.
    symmetry. apply signed_of_mod; auto. apply quot_range; auto. intros [E1 E2]. rewrite E1, E2, !Z.eqb_refl in E. discriminate.
  - destruct He as (Hb & _ & ->). destruct Hf as [Nu Nv]. destruct (Z.eqb_spec v 0); [discriminate|]. injection Hl as <-.
    rewrite !(signed_nonneg w) by auto. rewrite (signed_nonneg w v Hv Nv) in Rv. unfold fits in *.
    rewrite Z.rem_mod_nonneg by lia. unfold signed. unfold inRange in Rv.
    pose proof (Z.mod_pos_bound u v). destruct (Z.ltb_spec (u mod v) (2 ^ (w - 1))); lia.
  - destruct He as (Hb & _ & ->). destruct (Z.eqb_spec v 0); [discriminate|].
    destruct ((signed w u =? - 2 ^ (w - 1)) && (signed w v =? -1)) eqn:E; [discriminate|]. injection Hl as <-.
    symmetry. apply signed_of_mod; auto. apply rem_range; auto.
  - subst r. injection Hl as <-. symmetry. apply (signed_bitop w W Z.land andb); auto using Z.land_spec.
    intros a b Ha _. apply Z.land_nonneg. auto.
  - subst r. injection Hl as <-. symmetry. apply (signed_bitop w W Z.lor orb); auto using Z.lor_spec.
    intros a b Ha Hb. now apply Z.lor_nonneg.
  - subst r. injection Hl as <-. symmetry. apply (signed_bitop w W Z.lxor xorb); auto using Z.lxor_spec.
    intros a b Ha Hb. apply Z.lxor_nonneg. tauto.
  - destruct He.
  - destruct He.
  - destruct He.
Qed.
Print Assumptions C27_folded_constant_is_the_llvm_value_partial.
Example C27_ex_i32 : let u := 2 ^ 32 - 7 in execute SDiv (LVal (signed 32 u)) (LVal (signed 32 2)) = Ok (LVal (-3)) /\
  llvm 32 SDiv u 2 = Some (2 ^ 32 - 3) /\ fits 32 u /\ execute Xor (LVal (signed 32 u)) (LVal (signed 32 2)) = Ok (LVal (-5)).
Proof. cbn. split; [reflexivity|]. split; [reflexivity|]. split; [unfold fits; lia|reflexivity]. Qed.

(** At 64 bits addition, subtraction and multiplication need no condition: what
    overflows becomes bottom. *)
Theorem C27_exact_at_64_bits : forall op u v r x, op = Add \/ op = Sub \/ op = Mul ->
  fits 64 u -> fits 64 v ->
  execute op (LVal (signed 64 u)) (LVal (signed 64 v)) = Ok (LVal r) -> llvm 64 op u v = Some x -> r = signed 64 x.
Proof.
  intros op u v r x Ho Hu Hv He Hl. apply (C27_folded_constant_is_the_llvm_value_partial 64 op u v r x); auto; [lia|].
  apply execute_val in He. destruct Ho as [->|[->| ->]]; apply He.
Qed.
Print Assumptions C27_exact_at_64_bits.

(** The conditions are exactly right for these three. *)
Theorem C27_wrong_iff_it_leaves_the_range : forall w op u v r x, op = Add \/ op = Sub \/ op = Mul ->
  1 <= w <= 64 -> fits w u -> fits w v ->
  execute op (LVal (signed w u)) (LVal (signed w v)) = Ok (LVal r) -> llvm w op u v = Some x ->
  (r = signed w x <-> faithful w op u v).
Proof.
  intros w op u v r x Ho Hw Hu Hv He Hl. split; [|intros; now apply (C27_folded_constant_is_the_llvm_value_partial w op u v r x)].
  intros ->. assert (W : 1 <= w) by lia. apply execute_val in He.
  destruct Ho as [->|[->| ->]]; cbn [llvm faithful] in *; destruct He as [_ He]; injection Hl as <-; rewrite <- He;
    apply signed_range; auto; apply fits_mod; auto.
Qed.
Print Assumptions C27_wrong_iff_it_leaves_the_range.

(** So 32-bit overflow is not modelled: INT_MAX + 1 becomes 2147483648. *)
Theorem C27_narrow_overflow_refuted : exists u v r x, fits 32 u /\ fits 32 v /\
  execute Add (LVal (signed 32 u)) (LVal (signed 32 v)) = Ok (LVal r) /\ llvm 32 Add u v = Some x /\ r <> signed 32 x.
Proof.
  exists (2 ^ 31 - 1), 1, (2 ^ 31), (2 ^ 31). unfold fits. repeat split; try (cbn; lia).
Qed.
Print Assumptions C27_narrow_overflow_refuted.
(** Unsigned division and remainder are computed signed. *)
Theorem C27_unsigned_division_refuted : forall w, 2 <= w <= 64 -> exists u v r x, fits w u /\ fits w v /\
  execute UDiv (LVal (signed w u)) (LVal (signed w v)) = Ok (LVal r) /\ llvm w UDiv u v = Some x /\ r <> signed w x.
Proof.
  intros w Hw. exists (2 ^ w - 1), (2 ^ w - 2). pose proof (pow_split w ltac:(lia)) as Hp. pose proof (pow_pos (w - 1) ltac:(lia)) as H0.
  assert (H1 : 2 <= 2 ^ (w - 1)) by (change 2 with (2 ^ 1) at 1; apply Z.pow_le_mono_r; lia).
  assert (Su : signed w (2 ^ w - 1) = -1) by (unfold signed; destruct (Z.ltb_spec (2 ^ w - 1) (2 ^ (w - 1))); lia).
  assert (Sv : signed w (2 ^ w - 2) = -2) by (unfold signed; destruct (Z.ltb_spec (2 ^ w - 2) (2 ^ (w - 1))); lia).
  exists 0, 1. unfold fits. split; [lia|]. split; [lia|]. rewrite Su, Sv. split; [reflexivity|]. cbn [llvm].
  destruct (Z.eqb_spec (2 ^ w - 2) 0); [lia|]. split.
  - f_equal. symmetry. apply (Z.div_unique _ _ 1 1); lia.
  - unfold signed. destruct (Z.ltb_spec 1 (2 ^ (w - 1))); lia.
Qed.
Print Assumptions C27_unsigned_division_refuted.
Theorem C27_unsigned_remainder_refuted : exists u v r x, fits 32 u /\ fits 32 v /\
  execute URem (LVal (signed 32 u)) (LVal (signed 32 v)) = Ok (LVal r) /\ llvm 32 URem u v = Some x /\ r <> signed 32 x.
Proof. exists (2 ^ 32 - 1), 10, (-1), 5. unfold fits. repeat split; try (cbn; lia). Qed.
Print Assumptions C27_unsigned_remainder_refuted.

(** The analysis itself is undefined exactly for the minimum modulo -1. *)
Theorem C27_undefined_behaviour : forall op l r,
  execute op l r = UB <-> (op = URem \/ op = SRem) /\ l = LVal (- 2 ^ 63) /\ r = LVal (-1).
Proof.
  intros op l r. split.
  - destruct l as [|a|], r as [|b|]; try discriminate. destruct op; cbn [execute]; try discriminate;
      destruct (Z.eqb_spec b 0); try discriminate; destruct (Z.eqb_spec a (- 2 ^ 63)); try discriminate; cbn [andb];
      destruct (Z.eqb_spec b (-1)); try discriminate; subst; auto.
  - intros ([->| ->] & -> & ->); reflexivity.
Qed.
Print Assumptions C27_undefined_behaviour.
Theorem C27_undefined_remainder_refuted : exists u v, fits 64 u /\ fits 64 v /\
  execute URem (LVal (signed 64 u)) (LVal (signed 64 v)) = UB /\ llvm 64 URem u v = Some u.
Proof. exists (2 ^ 63), (2 ^ 64 - 1). unfold fits. repeat split; try lia. Qed.
Print Assumptions C27_undefined_remainder_refuted.

(** Everything else is bottom, never top. *)
Theorem C27_otherwise_bottom : forall op l r x, execute op l r = Ok x ->
  (x = LBot \/ exists a b v, l = LVal a /\ r = LVal b /\ x = LVal v) /\
  ((forall a b, l = LVal a -> r = LVal b -> False) -> x = LBot).
Proof.
  intros op l r x He. split.
  - destruct l as [|a|], r as [|b|]; cbn in He; try (left; now injection He as <-).
    destruct x as [|v|]; [exfalso|right; exists a, b, v; auto|auto]. destruct op; cbn in He;
      repeat match type of He with context [if ?c then _ else _] => destruct c end; discriminate.
  - intros Hn. destruct l as [|a|], r as [|b|]; cbn in He; try (now injection He as <-). exfalso. eauto.
Qed.
Print Assumptions C27_otherwise_bottom.

(** ** The edges of a binary operation *)

(** The fatal error cannot happen, an edge computes the operation on the value
    of the fact and the constant operand, and bottom stays bottom. *)
Theorem C27_edge_computes_the_operation : forall (V : Type) (EV : EqDec V) op (l r cur : fact V) e src, (forall w v, cur <> Const w v) ->
  binaryEdge op l r cur = Some e ->
  applyEdge e src <> Fatal /\
  (e <> AllBottom -> exists a b, applyEdge e src = execute op a b /\
     a = match l with Const _ v => LVal v | _ => src end /\ b = match r with Const _ v => LVal v | _ => src end) /\
  (cur <> Zero -> applyEdge e LBot = Ok LBot).
Proof.
  intros V EV op l r cur e src Hc He. unfold binaryEdge in He.
  assert (B : forall o a b, execute o a b <> Fatal).
  { intros o a b. destruct a as [|a|], b as [|b|]; try discriminate. destruct o; cbn [execute]; try discriminate;
      destruct (b =? 0); try discriminate; destruct ((a =? - 2 ^ 63) && (b =? -1)); discriminate. }
  destruct (eqb l cur || eqb r cur || _) eqn:F; [|discriminate]. injection He as <-.
  destruct ((eqb cur l && _) || _) eqn:A.
  { cbn [applyEdge]. split; [discriminate|]. split; [intros Hn; now elim Hn|auto]. }
  assert (X : exists a b, (forall s, computeTarget (mkBinOp op l r cur) s = execute op (a s) (b s)) /\
    (forall s, a s = match l with Const _ v => LVal v | _ => s end) /\ (forall s, b s = match r with Const _ v => LVal v | _ => s end) /\
    (cur <> Zero -> a LBot = LBot \/ b LBot = LBot)).
  { exists (fun s => match l with Const _ v => LVal v | _ => s end), (fun s => match r with Const _ v => LVal v | _ => s end).
    split; [|split; [auto|split; [auto|]]].
    - intros s. unfold computeTarget. cbn [bOp bL bR bCur].
      destruct (eqb l cur) eqn:El.
      + apply eqb_eq in El as ->. rewrite eqb_refl in A. destruct r as [|wr vr|ir]; try discriminate.
        destruct cur as [|wc vc|ic]; [|exfalso; eapply Hc; reflexivity|]; cbn [sext]; destruct s; reflexivity.
      + destruct (eqb r cur) eqn:Er.
        * apply eqb_eq in Er as ->. rewrite eqb_refl in A. destruct l as [|wl vl|il]; try (now rewrite orb_true_r in A).
          destruct cur as [|wc vc|ic]; [|exfalso; eapply Hc; reflexivity|]; cbn [sext]; destruct s; reflexivity.
        * cbn [orb] in F. destruct (eqb cur Zero) eqn:Ez; [|discriminate]. apply eqb_eq in Ez as ->.
          destruct l as [|wl vl|il], r as [|wr vr|ir]; try discriminate. reflexivity.
    - intros Hz. destruct (eqb l cur) eqn:El.
      + apply eqb_eq in El as ->. destruct cur; auto. exfalso; eapply Hc; reflexivity.
      + destruct (eqb r cur) eqn:Er.
        * apply eqb_eq in Er as ->. destruct cur; auto. exfalso; eapply Hc; reflexivity.
        * cbn [orb] in F. destruct (eqb cur Zero) eqn:Ez; [|discriminate]. apply eqb_eq in Ez. now elim Hz. }
  destruct X as (a & b & Hab & Ha & Hb & Hz). cbn [applyEdge]. rewrite !Hab. split; [apply B|]. split.
  - intros _. exists (a src), (b src). auto.
  - intros Hn. destruct (Hz Hn) as [-> | ->]; [reflexivity|destruct (a LBot); reflexivity].
Qed.
Print Assumptions C27_edge_computes_the_operation.
Example C27_ex_edge : binaryEdge (V := nat) Sub (Val 3%nat) (Const 32 5) (Val 3%nat) = Some (BinOpEdge (mkBinOp Sub (Val 3%nat) (Const 32 5) (Val 3%nat))) /\
  applyEdge (BinOpEdge (mkBinOp Sub (Val 3%nat) (Const 32 5) (Val 3%nat))) (LVal 12) = Ok (LVal 7) /\
  binaryEdge Sub (Val 3%nat) (Val 4%nat) (Val 3%nat) = Some AllBottom /\ binaryEdge Sub (Val 3%nat) (Val 4%nat) (Val 5%nat) = None.
Proof. repeat split. Qed.

(** Operator== ignores the current node, harmlessly so on reachable edges: equal
    edges compute the same value, and the hash, which does include the node,
    agrees too, because the node is determined by the operands. *)
Theorem C27_equal_edges_agree : forall (V : Type) (EV : EqDec V) (a b : binOp V), binaryEdge (bOp a) (bL a) (bR a) (bCur a) = Some (BinOpEdge a) ->
  binaryEdge (bOp b) (bL b) (bR b) (bCur b) = Some (BinOpEdge b) ->
  (forall w v, bCur a <> Const w v) -> (forall w v, bCur b <> Const w v) ->
  binOpEqb a b = true -> a = b.
Proof.
  intros V EV [oa la ra ca] [ob lb rb cb] Ha Hb Na Nb He. cbn [bOp bL bR bCur] in *.
  assert (E : oa = ob /\ la = lb /\ ra = rb).
  { unfold binOpEqb in He. cbn in He. destruct oa, ob; try discriminate; apply andb_true_iff in He as [H1 H2];
      apply eqb_eq in H1; apply eqb_eq in H2; auto. }
  destruct E as (-> & -> & ->). f_equal.
  assert (K : forall c, (forall w v, c <> Const w v) -> binaryEdge ob lb rb c = Some (BinOpEdge (mkBinOp ob lb rb c)) ->
    c = match lb, rb with Const _ _, Const _ _ => Zero | Const _ _, x => x | x, _ => x end).
  { clear - EV. intros c Hc He. unfold binaryEdge in He. destruct (eqb lb c || eqb rb c || _) eqn:F; [|discriminate].
    destruct ((eqb c lb && _) || _) eqn:A; [discriminate|]. clear He.
    destruct (eqb lb c) eqn:El.
    - apply eqb_eq in El as ->. destruct c; auto. exfalso; eapply Hc; reflexivity.
    - destruct (eqb rb c) eqn:Er.
      + apply eqb_eq in Er as ->. rewrite eqb_refl in A. destruct lb; try (now rewrite orb_true_r in A).
        destruct c; auto. exfalso; eapply Hc; reflexivity.
      + cbn [orb] in F. destruct (eqb c Zero) eqn:Ez; [|discriminate]. apply eqb_eq in Ez as ->.
        destruct lb, rb; try discriminate. reflexivity. }
  rewrite (K ca), (K cb); auto.
Qed.
Print Assumptions C27_equal_edges_agree.

(** The edges are not monotone: the not yet known value becomes bottom (the
    least precise), a known one stays a constant. *)
Theorem C27_edges_monotone_refuted : exists e : edge nat, (exists op l r cur, binaryEdge op l r cur = Some e) /\
  applyEdge e LTop = Ok LBot /\ exists v r, applyEdge e (LVal v) = Ok (LVal r).
Proof.
  exists (BinOpEdge (mkBinOp Add (Val 0%nat) (Const 32 1) (Val 0%nat))). split; [now exists Add, (Val 0%nat), (Const 32 1), (Val 0%nat)|].
  split; [reflexivity|]. now exists 1, 2.
Qed.
Print Assumptions C27_edges_monotone_refuted.
