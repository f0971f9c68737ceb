(** Model of /repo/include/phasar/Utils/DFAMinimizer.h ("DM.h") on graphs of
    type AdjacencyList, /repo/include/phasar/Utils/AdjacencyList.h ("AL.h").

    A vertex is its index; vertices of edges and roots are in range (the
    assertions of AL.h), so out-of-range reads, which have no result in the
    code, get a default here.  An edge is a weight and a target (the code's
    unweighted edges have the weight None).  Moving node tags out of the input
    graph is copying: each tag is moved at most once. *)
From Coq Require Import List Bool Arith.
From Verif Require Import Assoc.
Import ListNotations.

(** ** llvm::IntEqClasses (outside /repo), by its contract: a table of leaders,
    the smallest member of each class.  join makes the smaller leader the
    leader of both classes; compress numbers the classes by their leaders. *)
Definition eqClasses := list nat.
Definition grow (n : nat) : eqClasses := seq 0 n.
Definition findLeader (ec : eqClasses) (v : nat) : nat := nth v ec 0.
Definition join (ec : eqClasses) (a b : nat) : eqClasses :=
  let la := findLeader ec a in
  let lb := findLeader ec b in
  map (fun x => if x =? Nat.max la lb then Nat.min la lb else x) ec.
Definition isLeader (ec : eqClasses) (v : nat) : bool := findLeader ec v =? v.
Definition compress (ec : eqClasses) : list nat :=
  map (fun l => length (filter (isLeader ec) (seq 0 l))) ec.
Definition getNumClasses (ec : eqClasses) : nat := length (filter (isLeader ec) (seq 0 (length ec))).

Section DFA.
  Context {N W : Type} `{EqDec N} `{EqDec W}.

  Definition edge : Type := W * nat.
  (** AL.h:28-32 *)
  Record graph := mkGraph { nodes : list N; adj : list (list edge); roots : list nat }.
  Definition emptyGraph : graph := mkGraph [] [] [].
  Definition size (G : graph) : nat := length (adj G).
  Definition outEdges (G : graph) (v : nat) : list edge := nth v (adj G) [].
  Definition node (G : graph) (v : nat) : option N := nth_error (nodes G) v.

  (** AL.h:55-62, 78-85, 100-107 *)
  Definition addNode (G : graph) (x : option N) : nat * graph :=
    (length (nodes G),
     match x with Some x => mkGraph (nodes G ++ [x]) (adj G ++ [[]]) (roots G) | None => G end).
  Definition addRoot (G : graph) (v : nat) : graph := mkGraph (nodes G) (adj G) (roots G ++ [v]).
  Fixpoint pushAt {A} (i : nat) (a : A) (l : list (list A)) : list (list A) :=
    match l, i with
    | [], _ => []
    | x :: l', 0 => (x ++ [a]) :: l'
    | x :: l', S i' => x :: pushAt i' a l'
    end.
  Definition addEdge (G : graph) (from : nat) (to : edge) : graph :=
    mkGraph (nodes G) (pushAt from to (adj G)) (roots G).
  (** dedupOutEdges, AL.h:131-140, for all vertices: sort and unique.  The
      order of the edges afterwards is not modelled. *)
  Fixpoint dedup (l : list edge) : list edge :=
    match l with
    | [] => []
    | e :: l' => if mem e l' then dedup l' else e :: dedup l'
    end.
  Definition dedupAll (G : graph) : graph := mkGraph (nodes G) (map dedup (adj G)) (roots G).

  (** ** minimizeGraph, DM.h:86-186 *)
  (** the candidate pairs, DM.h:104-112 *)
  Definition similar (G : graph) (v u : nat) : bool :=
    eqb (node G v) (node G u) && (length (outEdges G v) =? length (outEdges G u)).
  Fixpoint pairsFrom (G : graph) (vs : list nat) : list (nat * nat) :=
    match vs with
    | [] => []
    | v :: vs' => map (pair v) (filter (similar G v) vs') ++ pairsFrom G vs'
    end.
  Definition pairs (G : graph) : list (nat * nat) := pairsFrom G (seq 0 (size G)).

  (** isEquivalent, DM.h:116-127 *)
  Definition isEquivalent (ec : eqClasses) (l r : edge) : bool :=
    if negb (eqb (fst l) (fst r)) then false
    else if snd l =? snd r then true
    else findLeader ec (snd l) =? findLeader ec (snd r).
  (** makeEquivalent, DM.h:129-135 *)
  Definition makeEquivalent (ec : eqClasses) (l r : nat) : eqClasses :=
    if l =? r then ec else join ec l r.
  (** removeAt, DM.h:137-141: the last element takes the place *)
  Fixpoint setAt {A} (i : nat) (a : A) (l : list A) : list A :=
    match l, i with
    | [], _ => []
    | _ :: l', 0 => a :: l'
    | x :: l', S i' => x :: setAt i' a l'
    end.
  Definition removeAt {A} (i : nat) (l : list A) : list A :=
    match l with [] => [] | d :: _ => removelast (setAt i (last l d) l) end.

  (** one pair, DM.h:151-179 *)
  Fixpoint allEquivalent (ec : eqClasses) (l r : list edge) : bool :=   (* llvm::zip stops at the shorter range *)
    match l, r with
    | a :: l', b :: r' => isEquivalent ec a b && allEquivalent ec l' r'
    | _, _ => true
    end.
  Definition mergeable (G : graph) (ec : eqClasses) (l r : nat) : bool :=
    if allEquivalent ec (outEdges G l) (outEdges G r) then true
    else if length (outEdges G l) =? 2 then
      match outEdges G l, outEdges G r with
      | l1 :: l2 :: _, r1 :: r2 :: _ => isEquivalent ec l1 r2 && isEquivalent ec l2 r1
      | _, _ => false
      end
    else false.
  (** the for loop, DM.h:149-180.  [None]: out of fuel. *)
  Fixpoint pass (fuel : nat) (G : graph) (i : nat) (wl : list (nat * nat)) (ec : eqClasses) (changed : bool)
    : option (list (nat * nat) * eqClasses * bool) :=
    match fuel with
    | 0 => None
    | S f =>
        match nth_error wl i with
        | None => Some (wl, ec, changed)
        | Some (l, r) =>
            if mergeable G ec l r then pass f G i (removeAt i wl) (makeEquivalent ec l r) true
            else pass f G (i + 1) wl ec changed
        end
    end.
  Fixpoint iterate (fuel : nat) (G : graph) (wl : list (nat * nat)) (ec : eqClasses) : option eqClasses :=
    match fuel with
    | 0 => None
    | S f =>
        match pass (length wl + 1) G 0 wl ec false with
        | None => None
        | Some (wl', ec', changed) => if changed then iterate f G wl' ec' else Some ec'
        end
    end.
  Definition minimizeGraph (G : graph) : option eqClasses :=
    iterate (length (pairs G) + 1) G (pairs G) (grow (size G)).

  (** ** createEquivalentGraphFrom, DM.h:23-84; [cls] is Eq after compress *)
  Record build := mkBuild {
    ret : graph;
    eq2vtx : list (nat * nat);       (* class -> new vertex; absent: Invalid *)
    handled : list nat;
    worklist : list nat              (* the top is the head *) }.
  Definition cls (eq : list nat) (v : nat) : nat := nth v eq 0.

  (** DM.h:43-53 *)
  Definition addRt (G : graph) (eq : list nat) (b : build) (rt : nat) : build :=
    let c := cls eq rt in
    match afind c (eq2vtx b) with
    | None =>
        let (nw, r) := addNode (ret b) (node G rt) in
        mkBuild (addRoot r nw) (aset c nw (eq2vtx b)) (handled b) (rt :: worklist b)
    | Some _ => mkBuild (ret b) (eq2vtx b) (handled b) (rt :: worklist b)
    end.
  (** DM.h:64-76 *)
  Definition addOut (G : graph) (eq : list nat) (nw : nat) (b : build) (e : edge) : build :=
    let t := snd e in
    let c := cls eq t in
    let '(r, m) :=
      match afind c (eq2vtx b) with
      | None => let (nt, r) := addNode (ret b) (node G t) in (r, aset c nt (eq2vtx b))
      | Some _ => (ret b, eq2vtx b)
      end in
    let wl := if mem t (handled b) then worklist b else t :: worklist b in
    mkBuild (addEdge r nw (fst e, afindd 0 c m)) m (handled b) wl.
  (** DM.h:55-77; the two outer [None]: out of fuel, failed assertion *)
  Fixpoint explore (fuel : nat) (G : graph) (eq : list nat) (b : build) : option build :=
    match fuel with
    | 0 => None
    | S f =>
        match worklist b with
        | [] => Some b
        | v :: wl =>
            match afind (cls eq v) (eq2vtx b) with
            | None => None
            | Some nw =>
                let b0 := mkBuild (ret b) (eq2vtx b) (v :: handled b) wl in
                explore f G eq (fold_left (addOut G eq nw) (outEdges G v) b0)
            end
        end
    end.
  Definition createEquivalentGraphFrom (fuel : nat) (G : graph) (eq : list nat) : option graph :=
    let b := fold_left (addRt G eq) (roots G) (mkBuild emptyGraph [] [] []) in
    option_map (fun b => dedupAll (ret b)) (explore fuel G eq b).

  Definition minimized (fuel : nat) (G : graph) : option graph :=
    match minimizeGraph G with
    | None => None
    | Some ec => createEquivalentGraphFrom fuel G (compress ec)
    end.
End DFA.
Arguments graph : clear implicits.
