(** Model of psr::CachedTypeGraph (lib/PhasarLLVM/Pointer/TypeGraphs/CachedTypeGraph.cpp), the object
    graph of the DTA resolver, and of DTAResolver::otherInst (lib/PhasarLLVM/ControlFlow/Resolver/DTAResolver.cpp).

    Vertices are indices 0..n-1 (boost::vecS); [tgBase] and [tgTypes] are the vertex properties
    BaseType and Types. boost::depth_first_visit is modelled by the textbook recursion that calls
    examine_edge for every out edge of a vertex and visits the white targets; [order] is the order of
    the in edges of a vertex (the out edges of the reversed graph). The guard AlreadyVisited is false
    at every call from outside and not modelled, likewise aggregateTypes and
    addLinkWithoutReversePropagation, which are used by unit tests only. *)
From Coq Require Import String List Bool Arith.
From Verif Require Import Assoc TypeHierarchyModel.
Import ListNotations.
Open Scope nat_scope.

Record tg := mkTG { tgNum : nat; tgMap : list (string * nat); tgBase : list nat; tgTypes : list (nat * list nat); tgEdges : list (nat * nat) }.
Definition emptyTG := mkTG 0 [] [] [] [].

(** reverse_type_propagation_dfs_visitor::examine_edge, CachedTypeGraph.cpp:47-57 *)
Definition propagate (u v : nat) (t : list (nat * list nat)) : list (nat * list nat) :=
  fold_left (fun t s => addReach v s t) (afindd [] u t) t.

Section M.
  Variable order : list nat -> list nat.
  Variable asserts : bool.
  Variable nm : nat -> string.          (* StructType::getName *)
  Variable isLit : nat -> bool.         (* StructType::isLiteral *)
  Variable addr : nat -> string.        (* the printed address of a type *)

  (** boost::depth_first_visit on the reversed graph from [u]; None: fuel exhausted *)
  Fixpoint dfs (fuel : nat) (es : list (nat * nat)) (u : nat) (st : list nat * list (nat * list nat)) : option (list nat * list (nat * list nat)) :=
    match fuel with
    | 0 => None
    | S k =>
        fold_left (fun acc v =>
          match acc with
          | None => None
          | Some (vis, t) =>
              let t' := propagate u v t in
              if mem v vis then Some (vis, t') else dfs k es v (vis, t')
          end) (order (map fst (filter (fun e => eqb (snd e) u) es))) (Some (u :: fst st, snd st))
    end.

  (** the key used by addType, CachedTypeGraph.cpp:64-71 *)
  Definition vname (t : nat) : string := if isLit t then String.append "literal_" (addr t) else nm t.

  (** CachedTypeGraph.cpp:62-83 *)
  Definition addType (t : nat) (g : tg) : nat * tg :=
    match afind (vname t) (tgMap g) with
    | Some v => (v, g)
    | None => (tgNum g, mkTG (S (tgNum g)) (aset (vname t) (tgNum g) (tgMap g)) (tgBase g ++ [t]) (aset (tgNum g) [t] (tgTypes g)) (tgEdges g))
    end.

  (** CachedTypeGraph.cpp:137-154. StructType::getName asserts that the type is not literal and is empty
      for it otherwise; TypeVertexMap[Name] inserts vertex 0 for an unknown name. *)
  Definition reverseTypePropagation (t : nat) (g : tg) : option tg :=
    if isLit t && asserts then None else
    let name := if isLit t then EmptyString else nm t in
    let v := afindd 0 name (tgMap g) in
    let m := match afind name (tgMap g) with Some _ => tgMap g | None => aset name 0 (tgMap g) end in
    match dfs (S (tgNum g)) (tgEdges g) v ([], tgTypes g) with
    | Some (_, ty) => Some (mkTG (tgNum g) m (tgBase g) ty (tgEdges g))
    | None => None
    end.

  (** CachedTypeGraph.cpp:85-105 *)
  Definition addLink (from to : nat) (g : tg) : option (bool * tg) :=
    let (f, g1) := addType from g in
    let (t, g2) := addType to g1 in
    if mem (f, t) (tgEdges g2) then Some (false, g2)
    else match reverseTypePropagation to (mkTG (tgNum g2) (tgMap g2) (tgBase g2) (tgTypes g2) (tgEdges g2 ++ [(f, t)])) with
         | Some g3 => Some (true, g3)
         | None => None
         end.

  (** CachedTypeGraph.cpp:156-160; the query adds an unknown type *)
  Definition getTypes (t : nat) (g : tg) : list nat * tg :=
    let (v, g1) := addType t g in (afindd [] v (tgTypes g1), g1).

  (** What DTA does with the graph *)
  Inductive tgop := Link (from to : nat) | Query (t : nat).
  Definition doTG (o : tgop) (g : tg) : option tg :=
    match o with
    | Link f t => match addLink f t g with Some (_, g') => Some g' | None => None end
    | Query t => Some (snd (getTypes t g))
    end.
  Fixpoint runTG (ops : list tgop) (g : tg) : option tg :=
    match ops with
    | [] => Some g
    | o :: r => match doTG o g with Some g' => runTG r g' | None => None end
    end.
End M.

(** DTAResolver::otherInst, DTAResolver.cpp:141-164, for one instruction: a bitcast of a pointer to (pointers to) the
    struct [src] to one to [dest] adds a link unless the constructor heuristic rejects it. The heuristic
    is not modelled; its answer is [accepted]. Casts with other pointees are [None]. *)
Definition otherInst (order : list nat -> list nat) (asserts : bool) (nm : nat -> string) (isLit : nat -> bool) (addr : nat -> string)
  (src dest : option nat) (accepted : bool) (g : tg) : option tg :=
  match src, dest with
  | Some s, Some d => if accepted then doTG order asserts nm isLit addr (Link d s) g else Some g
  | _, _ => Some g
  end.
