(** Model of psr::LLVMTypeHierarchy (lib/PhasarLLVM/TypeHierarchy/LLVMTypeHierarchy.cpp,
    LLVMTypeHierarchyData.cpp) for one module.

    Struct types are pointers, modelled as [nat]; [nm] gives their names, which are empty for
    unnamed identified types. llvm::demangle is an arbitrary function on strings. Vertex
    descriptors are identified with the struct type they carry (the struct types a module returns are
    distinct, so TypeVertexMap is a bijection); the graph is the list of vertices in order, the list
    of edges (boost::setS: no duplicates) and the cached reachable types of each vertex.
    Logging and the dot/JSON text layer are not modelled; JSON documents are modelled as trees. *)
From Coq Require Import String List Bool Arith.
From Verif Require Import Assoc.
Import ListNotations.
Open Scope nat_scope.

#[global] Instance EqDec_name : EqDec string := String.string_dec.

Notation styp := nat (only parsing).

(** What can stand below a bitcast constant expression: a global variable, a function, an alias
    or a further constant (e.g. a getelementptr), each with its name. *)
Inductive cval :=
| VGlobal (name : string)
| VFunction (f : nat) (name : string)
| VAlias (name : string) (aliasee : cval)
| VConst.

(** Value::getName; hasName is non-emptiness *)
Definition cname (v : cval) : string :=
  match v with VGlobal n => n | VFunction _ n => n | VAlias n _ => n | VConst => EmptyString end.

(** Elements of a constant aggregate as far as the code distinguishes them. *)
Inductive elt :=
| EBitCast (v : cval)
| EOther.
Inductive cop :=
| OElt (e : elt)
| OArray (l : list elt).

(** Initialiser of a global variable: none (external), a constant struct, anything else *)
Inductive init :=
| INone
| IStruct (ops : list cop)
| IOther.

Record global := mkGlobal { gName : string; gInit : init }.

(** The struct types found by Module::getIdentifiedStructTypes and the globals of the module *)
Record modul := mkModule { mTypes : list styp; mGlobals : list global }.

(** StringRef::startswith / drop_front *)
Definition dropPrefix (p s : string) : string :=
  if prefix p s then substring (String.length p) (String.length s - String.length p) s else s.

(** LLVMTypeHierarchy.h:83-93 *)
Definition StructPrefix := "struct."%string.
Definition ClassPrefix := "class."%string.
Definition VTablePrefix := "_ZTV"%string.
Definition VTablePrefixDemang := "vtable for "%string.
Definition TypeInfoPrefix := "_ZTI"%string.
Definition TypeInfoPrefixDemang := "typeinfo for "%string.

(** LLVMTypeHierarchy.cpp:141-149 *)
Definition removeStructOrClassPrefix (s : string) : string :=
  if prefix StructPrefix s then dropPrefix StructPrefix s
  else if prefix ClassPrefix s then dropPrefix ClassPrefix s
  else s.

(** lines 151-159 *)
Definition removeTypeInfoPrefix (s : string) : string :=
  if prefix TypeInfoPrefixDemang s then dropPrefix TypeInfoPrefixDemang s
  else if prefix TypeInfoPrefix s then dropPrefix TypeInfoPrefix s
  else s.

(** lines 161-169 *)
Definition removeVTablePrefix (s : string) : string :=
  if prefix VTablePrefixDemang s then dropPrefix VTablePrefixDemang s
  else if prefix VTablePrefix s then dropPrefix VTablePrefix s
  else s.

(** StringRef::find(p) != npos *)
Definition containsStr (p s : string) : bool :=
  match String.index 0 p s with Some _ => true | None => false end.

Definition isEmpty (s : string) : bool := match s with EmptyString => true | _ => false end.

Record th := mkTH { tVerts : list styp; tEdges : list (styp * styp); tReach : list (styp * list styp) }.

(** Warshall's closure: the contract of boost::transitive_closure (an edge for every non-empty
    path) in executable form; boost's algorithm itself is not modelled. *)
Definition compose (k : nat) (e : list (nat * nat)) : list (nat * nat) :=
  flat_map (fun a => if eqb (snd a) k then map (fun b => (fst a, snd b)) (filter (fun b => eqb (fst b) k) e) else []) e.
Definition warshall (vs : list nat) (e : list (nat * nat)) : list (nat * nat) :=
  fold_left (fun e k => e ++ compose k e) vs e.

Section M.
  Variable nm : styp -> string.
  Variable demangle : string -> string.

  (** lines 171-178, 180-187 *)
  Definition isTypeInfo (n : string) : bool :=
    prefix TypeInfoPrefix n || prefix TypeInfoPrefixDemang (demangle n).
  Definition isVTable (n : string) : bool :=
    prefix VTablePrefix n || prefix VTablePrefixDemang (demangle n).

  Definition clearType (t : styp) : string := removeStructOrClassPrefix (nm t).
  Definition clearTI (n : string) : string := removeTypeInfoPrefix (demangle n).
  Definition clearTV (n : string) : string := removeVTablePrefix (demangle n).

  (** lines 283-286 (ClearNameTypeMap: the last type with a name wins) *)
  Definition typeMap (ts : list styp) : list (string * styp) :=
    fold_left (fun m t => aset (clearType t) t m) ts [].

  (** lines 287-293 (ClearNameTIMap: the last type info with a name wins) *)
  Definition tiMap (gs : list global) : list (string * global) :=
    fold_left (fun m g => if negb (isEmpty (gName g)) && isTypeInfo (gName g) then aset (clearTI (gName g)) g m else m) gs [].

  (** lines 234-249: the type named by one operand of a type info, if any *)
  Definition operandType (tm : list (string * styp)) (o : cop) : list styp :=
    match o with
    | OElt (EBitCast v) =>
        if negb (isEmpty (cname v)) && containsStr TypeInfoPrefix (cname v) then
          match afind (clearTI (cname v)) tm with Some t => [t] | None => [] end
        else []
    | _ => []
    end.

  (** lines 217-254, the private getSubTypes: the types referenced by the type info of [t], i.e. its bases *)
  Definition referencedTypes (tm : list (string * styp)) (im : list (string * global)) (t : styp) : list styp :=
    match afind (clearType t) im with
    | Some g => match gInit g with IStruct ops => flat_map (operandType tm) ops | _ => [] end
    | None => []
    end.

  (** lines 302-309: vertices *)
  Definition addVertex (h : th) (t : styp) : th :=
    if mem t (tVerts h) then h else mkTH (tVerts h ++ [t]) (tEdges h) (aset t [t] (tReach h)).

  (** boost::add_edge on a graph with boost::setS *)
  Definition addEdge (u v : styp) (h : th) : th :=
    mkTH (tVerts h) (sinsert (u, v) (tEdges h)) (tReach h).

  (** lines 312-320: edges from the referenced types (bases) to the type *)
  Definition addEdges (tm : list (string * styp)) (im : list (string * global)) (h : th) (t : styp) : th :=
    fold_left (fun h b => addEdge b t h) (referencedTypes tm im t) h.

  (** lines 276-321 *)
  Definition constructHierarchy (m : modul) (h : th) : th :=
    fold_left (addEdges (typeMap (mTypes m)) (tiMap (mGlobals m))) (mTypes m)
      (fold_left addVertex (mTypes m) h).

  (** ReachableTypes.insert *)
  Definition addReach (v t : styp) (r : list (styp * list styp)) : list (styp * list styp) :=
    aset v (sinsert t (afindd [] v r)) r.

  (** lines 203-215 *)
  Definition cacheReachable (h : th) : th :=
    let tc := warshall (tVerts h) (tEdges h) in
    mkTH (tVerts h) (tEdges h)
      (fold_left (fun r v => fold_left (fun r e => if eqb (fst e) v then addReach v (snd e) r else r) tc r) (tVerts h) (tReach h)).
  Definition build (m : modul) : th := cacheReachable (constructHierarchy m (mkTH [] [] [])).

  (** lines 323-331; TypeVertexMap.find *)
  Definition getSubTypes (h : th) (t : styp) : list styp :=
    if mem t (tVerts h) then afindd [] t (tReach h) else [].

  (** LLVMTypeHierarchy.h:160-170 *)
  Definition hasType (h : th) (t : styp) : bool := mem t (tVerts h).
  Definition isSubType (h : th) (t s : styp) : bool := mem s (getSubTypes h t).

  (** lines 333-341 *)
  Definition getType (h : th) (n : string) : option styp := find (fun t => eqb (nm t) n) (tVerts h).

  (** lines 343-350 *)
  Definition getAllTypes (h : th) : list styp := tVerts h.

  (** * Serialisation *)

  (** LLVMTypeHierarchyData: name -> names *)
  Definition thdata := list (string * list string).

  (** lines 446-462: printAsJson, the data *)
  Definition toData (h : th) : thdata :=
    fold_left (fun d v => aset (nm v) (afindd [] (nm v) d ++ map nm (afindd [] v (tReach h))) d) (tVerts h) [].

  (** LLVMTypeHierarchyData.cpp:36-51: the member of the document that holds the graph; it is only
      created by the first entry, every entry is an array holding one array of names. *)
  Definition printData (d : thdata) : option (list (string * list (list string))) :=
    match d with [] => None | _ => Some (map (fun e => (fst e, [snd e])) d) end.

  (** LLVMTypeHierarchyData.cpp:16-34: indexing a constant document with a missing key is undefined
      (None) *)
  Definition readData (j : option (list (string * list (list string)))) : option thdata :=
    match j with
    | None => None
    | Some l => Some (fold_left (fun d e => aset (fst e) (afindd [] (fst e) d ++ concat (snd e)) d) l [])
    end.

  Inductive loaded := Loaded (h : th) | OutOfRange.

  (** lines 85-104: struct types by name *)
  Definition nameToType (ts : list styp) (d : thdata) : list (string * styp) :=
    fold_left (fun m e => match find (fun t => eqb (fst e) (nm t)) ts with
                          | Some t => if mem (fst e) (akeys m) then m else m ++ [(fst e, t)]
                          | None => m
                          end) d [].

  (** lines 122-131: one serialised edge; TypeVertexMap.at throws for a name that is not known
      (the null pointer inserted by operator[] is not a vertex) *)
  Definition loadEdge (m : list (string * styp)) (src : styp) (acc : loaded) (n : string) : loaded :=
    match acc with
    | OutOfRange => OutOfRange
    | Loaded h =>
        match afind n m with
        | Some dst => Loaded (addEdge src dst (mkTH (tVerts h) (tEdges h) (addReach src dst (tReach h))))
        | None => OutOfRange
        end
    end.

  (** lines 78-133; [order] is the iteration order of the StringMap NameToStructType *)
  Definition load (order : list (string * styp) -> list (string * styp)) (m : modul) (d : thdata) : loaded :=
    let nt := nameToType (mTypes m) d in
    let h0 := fold_left (fun h e => addVertex h (snd e)) (order nt) (mkTH [] [] []) in
    fold_left (fun acc e => match afind (fst e) nt with
                            | None => acc
                            | Some src => fold_left (loadEdge nt src) (snd e) acc
                            end) d (Loaded h0).

End M.
