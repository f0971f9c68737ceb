(** C44: psr::Table is a finite map with two keys. *)
From Coq Require Import List Bool.
From Verif Require Import Assoc TableModel TableProofs.
Import ListNotations.

(** All observers of a table built by any operation sequence agree with the
    two-key map specification. *)
Theorem C44_table_is_two_key_map :
  forall (R C V : Type) (HR : EqDec R) (HC : EqDec C) (d : V) (os : list (@op R C V)),
    let t := impl_run d os in let m := spec_run d os in
    (forall r c, t_contains t r c = true <-> m r c <> None) /\
    (forall r c, t_get d t r c = match m r c with Some v => v | None => d end) /\
    (forall r c v, In (r, c, v) (t_cells t) <-> m r c = Some v) /\
    NoDup (map fst (t_cells t)) /\
    (forall r c v, In (c, v) (t_row t r) <-> m r c = Some v) /\
    (forall r c v, In (r, v) (t_column t c) <-> m r c = Some v) /\
    (forall c, t_contains_column t c = true <-> exists r v, m r c = Some v) /\
    (forall r, (exists c v, m r c = Some v) -> t_contains_row t r = true).
Proof. exact (fun R C V HR HC d os => table_views d os). Qed.
Print Assumptions C44_table_is_two_key_map.

(** The converse for rows fails: a row emptied by nothing but created through
    the non-const row() accessor is reported by containsRow although it has no
    cell, and empty() is then false. *)
Theorem C44_row_accessor_creates_phantom_row_refuted :
  exists (t : table nat nat nat),
    t_cells t = [] /\ t_contains_row (fst (t_row_mut t 7)) 7 = true /\
    t_cells (fst (t_row_mut t 7)) = [] /\ t_is_empty (fst (t_row_mut t 7)) = false.
Proof. exact phantom_row. Qed.
Print Assumptions C44_row_accessor_creates_phantom_row_refuted.

(** remove returns the removed value and never leaves an empty row behind. *)
Theorem C44_remove_returns_old_value :
  forall (R C V : Type) (HR : EqDec R) (HC : EqDec C) (d : V) (os : list (@op R C V)) r c,
    snd (t_remove d (impl_run d os) r c) =
    match spec_run d os r c with Some v => v | None => d end.
Proof. exact (fun R C V HR HC d os => remove_returns_old d os). Qed.
Print Assumptions C44_remove_returns_old_value.

Example table_example :
  let os := [Insert 1 2 10; Insert 1 3 11; Insert 2 2 12; Remove 1 3; Touch 5 5; Insert 1 2 13] in
  t_cells (impl_run 0 os) = [(1, 2, 13); (2, 2, 12); (5, 5, 0)].
Proof. reflexivity. Qed.
