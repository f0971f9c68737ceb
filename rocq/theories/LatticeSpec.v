(** Join semilattices with a least element [top] and a greatest element [bot]
    (phasar's naming), up to an equivalence. *)
Record semilattice {L : Type} (eqv : L -> L -> Prop) (join : L -> L -> L) (top bot : L) : Prop := {
  sl_refl : forall x, eqv x x;
  sl_sym : forall x y, eqv x y -> eqv y x;
  sl_trans : forall x y z, eqv x y -> eqv y z -> eqv x z;
  sl_congr : forall x x' y y', eqv x x' -> eqv y y' -> eqv (join x y) (join x' y');
  sl_comm : forall x y, eqv (join x y) (join y x);
  sl_assoc : forall x y z, eqv (join x (join y z)) (join (join x y) z);
  sl_idem : forall x, eqv (join x x) x;
  sl_top : forall x, eqv (join top x) x;
  sl_bot : forall x, eqv (join bot x) bot
}.

(** Equivalence relations and strict weak orders whose incomparability is a
    given equivalence, for boolean operators. *)
Record equivalenceb {A} (eqb : A -> A -> bool) : Prop := {
  eqb_refl : forall x, eqb x x = true;
  eqb_sym : forall x y, eqb x y = true -> eqb y x = true;
  eqb_trans : forall x y z, eqb x y = true -> eqb y z = true -> eqb x z = true
}.

Record strict_order_of {A} (eqb ltb : A -> A -> bool) : Prop := {
  ltb_irrefl : forall x, ltb x x = false;
  ltb_trans : forall x y z, ltb x y = true -> ltb y z = true -> ltb x z = true;
  ltb_incomparable : forall x y, ltb x y = false -> ltb y x = false -> eqb x y = true;
  ltb_not_eqb : forall x y, ltb x y = true -> eqb x y = false
}.
