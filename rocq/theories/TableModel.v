(** Model of psr::Table<R,C,V>, /repo/include/phasar/Utils/Table.h.
    [std::unordered_map<R, std::unordered_map<C, V>> Tab] (line 249) becomes a
    nested association list.  Simplification: iteration order of the hash maps
    is the list order; all statements about iteration are up to the set of
    cells. *)
From Coq Require Import List Bool.
From Verif Require Import Assoc.
Import ListNotations.

Section Table.
  Context {R C V : Type} `{EqDec R} `{EqDec C}.

  Definition table := list (R * list (C * V)).

  (** Table() default constructor, Table.h:64 *)
  Definition t_empty : table := [].

  (** row(R) const, Table.h:212-220: default-constructed map if absent *)
  Definition t_row (t : table) (r : R) : list (C * V) := afindd [] r t.

  (** row(R) non-const, Table.h:207-210: [Tab[RowKey]] creates the row *)
  Definition t_row_mut (t : table) (r : R) : table * list (C * V) :=
    match afind r t with
    | Some row => (t, row)
    | None => (aset r [] t, [])
    end.

  (** insert, Table.h:74-77 *)
  Definition t_insert (t : table) (r : R) (c : C) (v : V) : table :=
    aset r (aset c v (t_row t r)) t.

  (** clear, Table.h:79 *)
  Definition t_clear (_ : table) : table := [].

  (** empty, Table.h:81 *)
  Definition t_is_empty (t : table) : bool :=
    match t with [] => true | _ => false end.

  (** size, Table.h:83 (number of ROWS) *)
  Definition t_size (t : table) : nat := length t.

  (** cellVec, Table.h:111-121; cellSet 85-94 and foreachCell 96-109 enumerate
      the same triples *)
  Definition t_cells (t : table) : list (R * C * V) :=
    flat_map (fun '(r, row) => map (fun '(c, v) => (r, c, v)) row) t.

  (** find through both levels, as in contains/get const *)
  Definition t_lookup (t : table) (r : R) (c : C) : option V :=
    match afind r t with
    | Some row => afind c row
    | None => None
    end.

  (** contains, Table.h:134-142 *)
  Definition t_contains (t : table) (r : R) (c : C) : bool :=
    match t_lookup t r c with Some _ => true | None => false end.

  (** containsColumn, Table.h:144-152 *)
  Definition t_contains_column (t : table) (c : C) : bool :=
    existsb (fun '(_, row) => match afind c row with Some _ => true | None => false end) t.

  (** containsRow, Table.h:154-157 *)
  Definition t_contains_row (t : table) (r : R) : bool :=
    match afind r t with Some _ => true | None => false end.

  (** column, Table.h:123-132 *)
  Definition t_column (t : table) (c : C) : list (R * V) :=
    flat_map (fun '(r, row) => match afind c row with Some v => [(r, v)] | None => [] end) t.

  (** get const, Table.h:165-180: [dflt] is V() *)
  Definition t_get (dflt : V) (t : table) (r : R) (c : C) : V :=
    match t_lookup t r c with Some v => v | None => dflt end.

  (** get non-const, Table.h:159-163: creates a default entry when missing *)
  Definition t_get_mut (dflt : V) (t : table) (r : R) (c : C) : table * V :=
    match t_lookup t r c with
    | Some v => (t, v)
    | None => (t_insert t r c dflt, dflt)
    end.

  (** remove(Row,Col), Table.h:182-203 *)
  Definition t_remove (dflt : V) (t : table) (r : R) (c : C) : table * V :=
    match afind r t with
    | None => (t, dflt)
    | Some row =>
        match afind c row with
        | None => (t, dflt)
        | Some v =>
            match adel c row with
            | [] => (adel r t, v)
            | row' => (aset r row' t, v)
            end
        end
    end.

  (** remove(Row), Table.h:205 *)
  Definition t_remove_row (t : table) (r : R) : table := adel r t.
End Table.
Arguments table : clear implicits.
