(** C15: LatticeDomain and BinaryDomain. *)
From Coq Require Import Bool ZArith.
From Verif Require Import LatticeModel LatticeSpec LatticeProofs IFDSModel.

(** For every value type whose operator== is an equivalence, join has the
    semilattice laws up to operator==. *)
Theorem C15_lattice_domain_is_semilattice :
  forall (V : Type) (veqb : V -> V -> bool), equivalenceb veqb ->
    semilattice (fun x y => ldEqb veqb x y = true) (ldJoin veqb) LTop LBot.
Proof. exact @ldJoin_semilattice. Qed.
Print Assumptions C15_lattice_domain_is_semilattice.

(** operator== relates exactly equal alternatives with equal values. *)
Theorem C15_equality_meaning :
  forall (V : Type) (veqb : V -> V -> bool) x y,
    ldEqb veqb x y = true <->
    (x = LTop /\ y = LTop) \/ (x = LBot /\ y = LBot) \/
    (exists a b, x = LVal a /\ y = LVal b /\ veqb a b = true).
Proof. exact @ldEqb_spec. Qed.
Print Assumptions C15_equality_meaning.

(** operator< never reaches llvm_unreachable ... *)
Theorem C15_less_total :
  forall (V : Type) (vltb : V -> V -> bool) l r, ldLt vltb l r <> None.
Proof. exact @ldLt_defined. Qed.
Print Assumptions C15_less_total.

(** ... and is a strict order whose incomparability is operator==, with top
    smallest and bottom greatest, if the value type's operators are. *)
Theorem C15_less_is_strict_order :
  forall (V : Type) (veqb vltb : V -> V -> bool),
    strict_order_of veqb vltb -> strict_order_of (ldEqb veqb) (ldLtb vltb).
Proof. exact @ldLt_order. Qed.
Print Assumptions C15_less_is_strict_order.

Theorem C15_top_least_bottom_greatest :
  forall (V : Type) (vltb : V -> V -> bool) x,
    (x <> LTop -> ldLtb vltb LTop x = true) /\ (x <> LBot -> ldLtb vltb x LBot = true).
Proof. exact @ldLt_top_bot. Qed.
Print Assumptions C15_top_least_bottom_greatest.

Theorem C15_equal_values_hash_equally :
  forall (V H : Type) (veqb : V -> V -> bool) (vhash : V -> H) hmax hmin x y,
    (forall a b, veqb a b = true -> vhash a = vhash b) ->
    ldEqb veqb x y = true -> ldHash vhash hmax hmin x = ldHash vhash hmax hmin y.
Proof. exact @ldHash_consistent. Qed.
Print Assumptions C15_equal_values_hash_equally.

Theorem C15_binary_domain_is_semilattice : semilattice eq bdom_join TOP BOTTOM.
Proof. exact bdom_semilattice. Qed.
Print Assumptions C15_binary_domain_is_semilattice.

(** int64_t values *)
Example C15_instance :
  equivalenceb Z.eqb /\ strict_order_of Z.eqb Z.ltb /\
  ldJoin Z.eqb (LVal 3%Z) (LVal 4%Z) = LBot /\ ldJoin Z.eqb (LVal 3%Z) LTop = LVal 3%Z /\
  ldJoin Z.eqb (LVal 3%Z) (LVal 3%Z) = LVal 3%Z.
Proof.
  split; [apply veqb_equivalence, Z.eqb_eq|]. split.
  - constructor; intros *; rewrite ?Z.ltb_lt, ?Z.ltb_ge, ?Z.eqb_neq, ?Z.eqb_eq; intros; Lia.lia.
  - repeat split; reflexivity.
Qed.
