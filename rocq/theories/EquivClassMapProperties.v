(** C18: EquivalenceClassMap *)
From Coq Require Import List Bool Arith.
From Verif Require Import Assoc EquivClassMapModel EquivClassMapSpec EquivClassMapProofs.
Import ListNotations.

Definition equivalence {V} (veqb : V -> V -> bool) : Prop :=
  (forall v, veqb v v = true) /\
  (forall v w, veqb v w = true -> veqb w v = true) /\
  (forall u v w, veqb u v = true -> veqb v w = true -> veqb u w = true).

(** For any history, a key is found under the oldest class it was inserted to. *)
Theorem C18_find_after_any_history :
  forall (K V : Type) (E : EqDec K) (veqb : V -> V -> bool), equivalence veqb ->
    forall (h : list (K * V)) (k : K),
      findValue k (insertRange veqb h []) = firstClass veqb h k.
Proof.
  exact (fun K V E veqb HE => match HE with conj a (conj b c) => history_find veqb a b c end).
Qed.
Print Assumptions C18_find_after_any_history.

Theorem C18_count_after_any_history :
  forall (K V : Type) (E : EqDec K) (veqb : V -> V -> bool), equivalence veqb ->
    forall (h : list (K * V)) (k : K),
      count k (insertRange veqb h []) = 1 <-> In k (map fst h).
Proof.
  exact (fun K V E veqb HE => match HE with conj a (conj b c) => history_count veqb a b c end).
Qed.
Print Assumptions C18_count_after_any_history.

Theorem C18_one_class_per_value :
  forall (K V : Type) (E : EqDec K) (veqb : V -> V -> bool), equivalence veqb ->
    forall (h : list (K * V)),
      size (insertRange veqb h []) = length (classValues veqb h).
Proof.
  exact (fun K V E veqb HE => match HE with conj a (conj b c) => history_size veqb a b c end).
Qed.
Print Assumptions C18_one_class_per_value.

(** A key inserted with one value (up to ==) is found with that value. *)
Theorem C18_map_for_unique_values :
  forall (K V : Type) (E : EqDec K) (veqb : V -> V -> bool), equivalence veqb ->
    forall (h : list (K * V)) (k : K) (v : V),
      In (k, v) h -> (forall w, In (k, w) h -> veqb v w = true) ->
      exists w, findValue k (insertRange veqb h []) = Some w /\ veqb w v = true.
Proof.
  exact (fun K V E veqb HE => match HE with conj a (conj b c) => history_single veqb a b c end).
Qed.
Print Assumptions C18_map_for_unique_values.

Theorem C18_equal_values_share_a_class :
  forall (K V : Type) (E : EqDec K) (veqb : V -> V -> bool), equivalence veqb ->
    forall (h : list (K * V)) (k k' : K) (v v' : V),
      NoDup (map fst h) -> In (k, v) h -> In (k', v') h ->
      (findValue k (insertRange veqb h []) = findValue k' (insertRange veqb h []) -> veqb v v' = true) /\
      (veqb v v' = true -> findValue k (insertRange veqb h []) = findValue k' (insertRange veqb h [])).
Proof.
  exact (fun K V E veqb HE => match HE with conj a (conj b c) => history_share veqb a b c end).
Qed.
Print Assumptions C18_equal_values_share_a_class.

(** Inserting a key again is not rejected, and what is found afterwards is
    neither always the first nor always the last value given for the key. *)
Theorem C18_first_insertion_wins_refuted :
  exists (h : list (nat * nat)) k v w,
    h = [(1, v); (k, w); (k, v)] /\ v <> w /\
    snd (try_emplace Nat.eqb k v (insertRange Nat.eqb (firstn 2 h) [])) = true /\
    findValue k (insertRange Nat.eqb (firstn 2 h) []) = Some w /\
    findValue k (insertRange Nat.eqb h []) = Some v.
Proof. exists [(1, 10); (2, 20); (2, 10)], 2, 10, 20. repeat split; try reflexivity. discriminate. Qed.
Print Assumptions C18_first_insertion_wins_refuted.

Theorem C18_last_insertion_wins_refuted :
  exists (h : list (nat * nat)) k v w,
    h = [(k, v); (k, w)] /\ v <> w /\ findValue k (insertRange Nat.eqb h []) = Some v.
Proof. exists [(2, 10); (2, 20)], 2, 10, 20. repeat split; try reflexivity. discriminate. Qed.
Print Assumptions C18_last_insertion_wins_refuted.

Example C18_instance :
  equivalence Nat.eqb /\
  insertRange Nat.eqb [(1, 10); (2, 20); (3, 10)] [] = [([1; 3], 10); ([2], 20)] /\
  findValue 3 (insertRange Nat.eqb [(1, 10); (2, 20); (3, 10)] []) = Some 10 /\
  NoDup (map fst [(1, 10); (2, 20); (3, 10)]).
Proof.
  split.
  - split; [exact Nat.eqb_refl|]. split; intros *; rewrite ?Nat.eqb_eq; congruence.
  - split; [reflexivity|]. split; [reflexivity|]. cbn. repeat constructor; cbn; intuition discriminate.
Qed.
