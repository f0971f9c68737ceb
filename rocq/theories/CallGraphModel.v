(** Model of psr::CallGraph / CallGraphBuilder and their JSON serialisation
    (include/phasar/ControlFlow/CallGraph.h, CallGraphData.{h,cpp}).

    Call sites and functions are pointers, modelled as [nat] with 0 = nullptr.
    The vertices are owned by a StableVector (call sites) and a std::vector with
    reserved capacity (functions); the two DenseMaps hold pointers into them. A
    pointer into the std::vector is a pair (generation, index): every reallocation
    starts a new generation and leaves older pointers dangling. Reading or writing
    through a dangling pointer is the outcome [None]. *)
From Coq Require Import String List Bool Arith NArith.
From Verif Require Import Assoc.
Import ListNotations.
Open Scope nat_scope.

Notation inst := nat (only parsing).
Notation fn := nat (only parsing).
Notation fptr := (nat * nat)%type (only parsing).

(** CallGraph.h:176-180 *)
Record cg := mkCG {
  instOwner : list (list fn);
  funOwner : list (list inst); funCap : nat; funGen : nat;
  calleesAt : list (inst * nat);
  callersOf : list (fn * fptr) }.

Definition emptyCG := mkCG [] [] 0 0 [] [].

Fixpoint upd {A} (i : nat) (g : A -> A) (l : list A) : option (list A) :=
  match l, i with
  | [], _ => None
  | x :: r, 0 => Some (g x :: r)
  | x :: r, S j => match upd j g r with Some r' => Some (x :: r') | None => None end
  end.

(** dereference of a FunctionVertexTy pointer *)
Definition derefF (p : fptr) (s : cg) : option (list inst) :=
  if fst p =? funGen s then nth_error (funOwner s) (snd p) else None.

(** CallGraph.h:158-172 *)
Definition getCalleesOfCallAt (n : inst) (s : cg) : option (list fn) :=
  match afind n (calleesAt s) with Some i => nth_error (instOwner s) i | None => Some [] end.
Definition getCallersOf (f : fn) (s : cg) : option (list inst) :=
  match afind f (callersOf s) with Some p => derefF p s | None => Some [] end.
(** CallGraph.h:67-87 *)
Definition getAllVertexFunctions (s : cg) := akeys (callersOf s).
Definition getAllVertexCallSites (s : cg) := akeys (calleesAt s).
Definition size (s : cg) := length (callersOf s).

(** CallGraph.h:192-196; the DenseMap::reserve calls have no visible effect.
    std::vector::reserve reallocates when it has to grow. *)
Definition reserve (k : nat) (s : cg) : cg :=
  if k <=? funCap s then s
  else mkCG (instOwner s) (funOwner s) k (S (funGen s)) (calleesAt s) (callersOf s).

(** CallGraph.h:201-210. [asserts]: build with assertions; the failed assertion is [None].
    Without, emplace_back reallocates. (The new capacity is implementation defined;
    doubled here.) *)
Definition addFunctionVertex (asserts : bool) (f : fn) (s : cg) : option (fptr * cg) :=
  match afind f (callersOf s) with
  | Some p => Some (p, s)
  | None =>
      if length (funOwner s) <? funCap s then
        let p := (funGen s, length (funOwner s)) in
        Some (p, mkCG (instOwner s) (funOwner s ++ [[]]) (funCap s) (funGen s) (calleesAt s) (aset f p (callersOf s)))
      else if asserts then None
      else let p := (S (funGen s), length (funOwner s)) in
        Some (p, mkCG (instOwner s) (funOwner s ++ [[]]) (2 * funCap s + 1) (S (funGen s)) (calleesAt s) (aset f p (callersOf s)))
  end.

(** CallGraph.h:216-222; a StableVector never moves its elements (StableVectorModel.v) *)
Definition addInstructionVertex (n : inst) (s : cg) : nat * cg :=
  match afind n (calleesAt s) with
  | Some i => (i, s)
  | None => let i := length (instOwner s) in
      (i, mkCG (instOwner s ++ [[]]) (funOwner s) (funCap s) (funGen s) (aset n i (calleesAt s)) (callersOf s))
  end.

(** CallGraph.h:226-229 *)
Definition getInstVertexOrNull (n : inst) (s : cg) : option nat := afind n (calleesAt s).

(** CallGraph.h:266-270 *)
Definition addEdgePtrs (n : inst) (callees : nat) (f : fn) (callers : fptr) (s : cg) : option cg :=
  match upd callees (fun l => l ++ [f]) (instOwner s) with
  | None => None
  | Some io =>
      if fst callers =? funGen s then
        match upd (snd callers) (fun l => l ++ [n]) (funOwner s) with
        | Some fo => Some (mkCG io fo (funCap s) (funGen s) (calleesAt s) (callersOf s))
        | None => None
        end
      else None
  end.

(** CallGraph.h:233-251 *)
Definition addCallEdge (asserts : bool) (n : inst) (f : fn) (s : cg) : option cg :=
  let '(i, s1) := addInstructionVertex n s in
  match addFunctionVertex asserts f s1 with Some (p, s2) => addEdgePtrs n i f p s2 | None => None end.
Definition addCallEdgeI (asserts : bool) (n : inst) (i : nat) (f : fn) (s : cg) : option cg :=
  match addFunctionVertex asserts f s with Some (p, s1) => addEdgePtrs n i f p s1 | None => None end.
Definition addCallEdgeF (n : inst) (f : fn) (p : fptr) (s : cg) : option cg :=
  let '(i, s1) := addInstructionVertex n s in addEdgePtrs n i f p s1.

(** builder histories *)
Inductive op :=
| Reserve (k : nat) | AddFun (f : fn) | AddInst (n : inst)
| Edge (n : inst) (f : fn) | EdgeI (n : inst) (i : nat) (f : fn) | EdgeF (n : inst) (f : fn) (p : fptr).
Definition step (asserts : bool) (o : op) (s : cg) : option cg :=
  match o with
  | Reserve k => Some (reserve k s)
  | AddFun f => option_map snd (addFunctionVertex asserts f s)
  | AddInst n => Some (snd (addInstructionVertex n s))
  | Edge n f => addCallEdge asserts n f s
  | EdgeI n i f => addCallEdgeI asserts n i f s
  | EdgeF n f p => addCallEdgeF n f p s
  end.
Fixpoint run (asserts : bool) (ops : list op) (s : cg) : option cg :=
  match ops with
  | [] => Some s
  | o :: r => match step asserts o s with Some s' => run asserts r s' | None => None end
  end.

(** * JSON *)
(** CallGraphData.h: std::unordered_map<std::string, std::vector<uint32_t>> *)
Definition cgData := list (string * list N).
Definition u32 (x : N) : N := N.modulo x 4294967296.

#[global] Instance EqDec_str : EqDec string := string_dec.

(** CallGraph.h:90-103. [entries]: what iterating CallersOf yields (any order). *)
Definition toData (fid : fn -> string) (iid : inst -> N) (entries : list (fn * list inst)) : cgData :=
  fold_left (fun d e => let '(f, cs) := e in
               aset (fid f) (afindd [] (fid f) d ++ map (fun n => u32 (iid n)) cs) d) entries [].

(** CallGraphData.cpp:35-47: what the text of the JSON denotes. [JSON[Fun]] creates a
    null member, the first push_back turns it into an array; without any function the
    whole document is null. nlohmann's printing and parsing are assumed to be inverse. *)
Inductive jval := JNull | JArr (l : list N).
Inductive jdoc := DNull | DObj (m : list (string * jval)).
Definition toJson (d : cgData) : jdoc :=
  match d with
  | [] => DNull
  | _ => DObj (map (fun e => (fst e, match snd e with [] => JNull | l => JArr l end)) d)
  end.

(** CallGraphData.cpp:17-33; [Json.get<object_t>()] throws on null ([None]). *)
Definition fromJson (j : jdoc) : option cgData :=
  match j with
  | DNull => None
  | DObj m => Some (fold_left (fun d e => aset (fst e) (match snd e with JArr l => map u32 l | JNull => [] end) d) m [])
  end.

(** CallGraph.h:275-306; [getF]/[getI] return 0 (nullptr) for unknown ids *)
Section Deser.
  Variable asserts : bool.
  Variable getF : string -> fn.
  Variable getI : N -> inst.
  Definition addAll (f : fn) (ids : list N) (s : option cg) : option cg :=
    fold_left (fun s id => match s with Some s => addCallEdge asserts (getI id) f s | None => None end) ids s.
  Definition deserEntry (s : option cg) (e : string * list N) : option cg :=
    match s with
    | None => None
    | Some s =>
        if getF (fst e) =? 0 then Some s
        else match addFunctionVertex asserts (getF (fst e)) s with
             | Some (_, s1) => addAll (getF (fst e)) (snd e) (Some s1)
             | None => None
             end
    end.
  Definition deserialize (d : cgData) : option cg :=
    fold_left deserEntry d (Some (reserve (length d) emptyCG)).
End Deser.

(** the iteration over CallersOf (CallGraph.h:95-103) dereferences every vertex *)
Definition entries (s : cg) : list (fn * option (list inst)) :=
  map (fun e => (fst e, derefF (snd e) s)) (callersOf s).
