(** Model of the type hierarchy that is built from debug information
    (lib/PhasarLLVM/TypeHierarchy/DIBasedTypeHierarchy.cpp, below DI.cpp, and
    include/phasar/PhasarLLVM/TypeHierarchy/DIBasedTypeHierarchy.h, below DI.h).

    Types of the debug information are numbers; what a type is, is given by
    [ty].  Functions are named by strings.

    Simplifications:
    - The typedefs on the way from a class to its base are written in place.
    - llvm::DebugInfoFinder is its result: the types and the subprograms that it
      found, in order.
    - Indices are natural numbers, not uint32_t/int32_t.
    - The JSON text stands for the data it is made of.
    - Failing assertions, fatal errors, and loops that do not end are [None]. *)
From Coq Require Import String List Bool Arith.
From Verif Require Import Assoc.
Import ListNotations.
#[local] Instance EqDec_diname : EqDec string := string_dec.

(** ** Debug information *)
(** the base type of a DW_TAG_inheritance: a type, or a typedef of one *)
Inductive baseref := Direct (t : nat) | Alias (b : baseref).
Inductive elem := Inherits (b : baseref) | Member.
Inductive dtag := ClassTag | StructTag | UnionTag | OtherTag.
Inductive ty :=
| Composite (tag : dtag) (name ident : string) (elements : list elem)
| OtherType (name : string).                 (* basic and derived types *)
(** a DISubprogram *)
Record subprogram := mkSub {
  sVirtual : bool;              (* getVirtuality() != 0 *)
  sIndex : nat;                 (* getVirtualIndex *)
  sScope : option nat;          (* getScope, if it is a composite type *)
  sLinkage : string
}.
Record modul := mkMod {
  mTy : nat -> ty;
  mTypes : list nat;            (* DebugInfoFinder::types *)
  mSubs : list subprogram;      (* DebugInfoFinder::subprograms *)
  mFuns : list string           (* the functions declared or defined *)
}.
(** LLVMProjectIRDB::getFunction *)
Definition getFunction (m : modul) (n : string) : option string :=
  if existsb (String.eqb n) (mFuns m) then Some n else None.
(** DIType::getName *)
Definition getName (x : ty) : string := match x with Composite _ n _ _ => n | OtherType n => n end.
(** getCompositeTypeName, DI.cpp:174-177; getTypeName, DI.h:67-73 *)
Definition getTypeName (x : ty) : string :=
  match x with
  | Composite _ n i _ => if String.eqb i ""%string then n else i
  | OtherType n => n
  end.

(** try_emplace *)
Definition emplace {K V} `{EqDec K} (k : K) (v : V) (l : list (K * V)) : list (K * V) :=
  match afind k l with Some _ => l | None => l ++ [(k, v)] end.
(** Vec[I] = V on a vector given as a function *)
Definition upd {A} (f : nat -> A) (i : nat) (v : A) : nat -> A := fun j => if j =? i then v else f j.

Record hierarchy := mkH {
  NameToType : list (string * nat);
  TypeToVertex : list (nat * nat);
  VertexTypes : list nat;
  TransitiveDerivedIndex : list (nat * nat);
  Hierarchy : list nat;
  VTables : list (list (option string))
}.

(** ** Construction *)
(** is_contained(DwarfTags, ...), DI.cpp:194-204 *)
Definition isClassTag (t : dtag) : bool := match t with ClassTag | StructTag | UnionTag => true | OtherTag => false end.
(** the filter of the types, DI.cpp:193-212 *)
Definition vertices : Type := list (nat * nat) * list nat * list (string * nat).
Definition addType (m : modul) (acc : option vertices) (t : nat) : option vertices :=
  match acc with
  | None => None
  | Some (tv, vt, nt) =>
      match mTy m t with
      | Composite tag _ _ _ =>
          if negb (isClassTag tag) then Some (tv, vt, nt)
          else
            match afind t tv with
            | Some _ => Some (tv, vt, nt)
            | None =>
                let name := getTypeName (mTy m t) in
                if String.eqb name ""%string then None   (* assert *)
                else Some (emplace t (length vt) tv, vt ++ [t], emplace name t nt)
            end
      | OtherType _ => Some (tv, vt, nt)
      end
  end.
Definition collectTypes (m : modul) : option vertices := fold_left (addType m) (mTypes m) (Some ([], [], [])).

(** VTable.resize(N) *)
Definition resize (v : list (option string)) (n : nat) : list (option string) := firstn n v ++ repeat None (n - length v).
(** VTable[I] = F *)
Fixpoint store (v : list (option string)) (i : nat) (f : option string) : list (option string) :=
  match v, i with
  | [], _ => []
  | _ :: v', 0 => f :: v'
  | x :: v', S i' => x :: store v' i' f
  end.
(** the body of the loop of buildVTables, DI.cpp:50-89 *)
Definition addFunction (m : modul) (tv : list (nat * nat)) (vts : nat -> list (option string)) (s : subprogram)
  : nat -> list (option string) :=
  if negb (sVirtual s) then vts
  else
    match sScope s with
    | None => vts
    | Some parent =>
        match afind parent tv with
        | None => vts
        | Some idx =>
            match getFunction m (sLinkage s) with
            | None => vts
            | Some fn =>
                let vt := vts idx in
                if length vt =? sIndex s then upd vts idx (vt ++ [Some fn])
                else
                  let vt := if length vt <? sIndex s then resize vt (sIndex s + 1) else vt in
                  upd vts idx (store vt (sIndex s) (Some fn))
            end
        end
    end.
(** DI.cpp:43-92 *)
Definition buildVTables (m : modul) (tv : list (nat * nat)) : nat -> list (option string) :=
  fold_left (addFunction m tv) (mSubs m) (fun _ => []).

(** the loop over typedefs, DI.cpp:116-119 *)
Fixpoint strip (b : baseref) : nat := match b with Direct t => t | Alias b' => strip b' end.
Record typeGraph := mkTG { Roots : nat -> bool; DerivedTypesOf : nat -> list nat }.
(** the body of the loop over the elements, DI.cpp:112-126 *)
Definition addElement (tv : list (nat * nat)) (derivedIdx : nat) (acc : option typeGraph) (e : elem) : option typeGraph :=
  match acc, e with
  | None, _ => None
  | Some tg, Member => Some tg
  | Some tg, Inherits b =>
      match afind (strip b) tv with
      | None => None             (* lookup gives 0; assert *)
      | Some baseIdx =>
          Some (mkTG (upd (Roots tg) derivedIdx false)
                     (upd (DerivedTypesOf tg) baseIdx (DerivedTypesOf tg baseIdx ++ [derivedIdx])))
      end
  end.
Definition elementsOf (x : ty) : list elem := match x with Composite _ _ _ es => es | OtherType _ => [] end.
Definition addComposite (m : modul) (tv : list (nat * nat)) (acc : option typeGraph) (t : nat) : option typeGraph :=
  match afind t tv with
  | None => None
  | Some derivedIdx => fold_left (addElement tv derivedIdx) (elementsOf (mTy m t)) acc
  end.
(** DI.cpp:99-131 *)
Definition buildTypeGraph (m : modul) (tv : list (nat * nat)) (vt : list nat) : option typeGraph :=
  fold_left (addComposite m tv) vt (Some (mkTG (fun _ => true) (fun _ => []))).

(** an element of WorkList; ~I is [Leave I] *)
Inductive work := Enter (i : nat) | Leave (i : nat).
Record dfs := mkD { Seen : nat -> bool; Index : nat -> nat * nat; Linear : list nat }.
(** the while loop, DI.cpp:149-171; the list has the back of the vector in front *)
Fixpoint visit (fuel : nat) (derived : nat -> list nat) (wl : list work) (s : dfs) : option dfs :=
  match fuel with
  | 0 => None
  | S fuel =>
      match wl with
      | [] => Some s
      | Leave i :: wl =>
          visit fuel derived wl (mkD (Seen s) (upd (Index s) i (fst (Index s i), length (Linear s))) (Linear s))
      | Enter i :: wl =>
          let s' := if negb (Seen s i)
                    then mkD (Seen s) (upd (Index s) i (length (Linear s), snd (Index s i))) (Linear s)
                    else mkD (upd (Seen s) i true) (Index s) (Linear s) in
          visit fuel derived (rev (map Enter (derived i)) ++ Leave i :: wl)
                (mkD (Seen s') (Index s') (Linear s' ++ [i]))
      end
  end.
(** the loop over the roots, DI.cpp:133-173; the hierarchy holds vertices here *)
Definition linearise (fuel : nat) (tg : typeGraph) (n : nat) : option dfs :=
  fold_left (fun acc r => match acc with
                          | None => None
                          | Some s => if Roots tg r then visit fuel (DerivedTypesOf tg) [Enter r] s else Some s
                          end)
            (seq 0 n) (Some (mkD (fun _ => false) (fun _ => (0, 0)) [])).

(** the constructor, DI.cpp:179-225 *)
Definition build (fuel : nat) (m : modul) : option hierarchy :=
  match collectTypes m with
  | None => None
  | Some (tv, vt, nt) =>
      match buildTypeGraph m tv vt with
      | None => None
      | Some tg =>
          match linearise fuel tg (length vt) with
          | None => None
          | Some s =>
              Some (mkH nt tv vt
                        (map (Index s) (seq 0 (length vt)))
                        (map (fun i => nth i vt 0) (Linear s))
                        (map (buildVTables m tv) (seq 0 (length vt))))
          end
      end
  end.

(** ** Queries *)
(** DI.cpp:313-318: the elements between two pointers *)
Definition subTypesOfIdx (h : hierarchy) (i : nat) : list nat :=
  let '(start, stop) := nth i (TransitiveDerivedIndex h) (0, 0) in
  firstn (stop - start) (skipn start (Hierarchy h)).
(** DI.cpp:320-329 *)
Definition subTypesOf (h : hierarchy) (t : nat) : list nat :=
  match afind t (TypeToVertex h) with None => [] | Some i => subTypesOfIdx h i end.
(** DI.h:38-45, 54-57 *)
Definition hasType (h : hierarchy) (t : nat) : bool := match afind t (TypeToVertex h) with Some _ => true | None => false end.
Definition isSubType (h : hierarchy) (t s : nat) : bool := existsb (Nat.eqb s) (subTypesOf h t).
Definition getType (h : hierarchy) (n : string) : option nat := afind n (NameToType h).
(** LLVMVFTable::getFunction of an entry of getAllVTables, LLVMVFTable.cpp:27-32 *)
Definition vtEntry (h : hierarchy) (v i : nat) : option string :=
  let vt := nth v (VTables h) [] in if i <? length vt then nth i vt None else None.
(** the edges of printAsDot, DI.cpp:398-404 *)
Definition dotEdges (h : hierarchy) : list (nat * option nat) :=
  flat_map (fun i => map (fun s => (i, afind s (TypeToVertex h))) (subTypesOfIdx h i)) (seq 0 (length (TypeToVertex h))).

(** ** Serialisation *)
Record data := mkData {
  dVertexTypes : list string;
  dTransitiveDerivedIndex : list (nat * nat);
  dHierarchy : list string;
  dVTables : list (list string)
}.
Definition NullFunName : string := "__null__"%string.
(** getTypeHierarchyData, DI.cpp:353-385 *)
Definition getTypeHierarchyData (m : modul) (h : hierarchy) : data :=
  mkData (map (fun t => getTypeName (mTy m t)) (VertexTypes h))
         (TransitiveDerivedIndex h)
         (map (fun t => getName (mTy m t)) (Hierarchy h))
         (map (map (fun f => match f with Some n => n | None => NullFunName end)) (VTables h)).
(** stringToDICompositeType, DI.cpp:227-249: [ByName] and [HasUniqueByName] *)
Fixpoint findComposite (m : modul) (n : string) (byName : option nat) (uniq : bool) (l : list nat) : option nat :=
  match l with
  | [] => if uniq then byName else None
  | t :: l' =>
      match mTy m t with
      | Composite _ name ident _ =>
          if String.eqb ident n then Some t
          else if String.eqb name n
          then findComposite m n (Some t) (match byName with None => true | Some _ => false end) l'
          else findComposite m n byName uniq l'
      | OtherType _ => findComposite m n byName uniq l'
      end
  end.
(** stringToDIType, DI.cpp:251-260 *)
Definition stringToDIType (m : modul) (n : string) : option nat :=
  find (fun t => String.eqb (getName (mTy m t)) n) (mTypes m).
(** the loop over the vertex types, DI.cpp:272-281 *)
Definition loadType (m : modul) (acc : option vertices) (n : string) : option vertices :=
  match acc with
  | None => None
  | Some (tv, vt, nt) =>
      match findComposite m n None false (mTypes m) with
      | None => None
      | Some t => Some (emplace t (length vt) tv, vt ++ [t], emplace n t nt)
      end
  end.
Fixpoint loadHierarchy (m : modul) (l : list string) : option (list nat) :=
  match l with
  | [] => Some []
  | n :: l' =>
      match stringToDIType m n, loadHierarchy m l' with Some t, Some ts => Some (t :: ts) | _, _ => None end
  end.
(** DI.cpp:288-300 *)
Definition loadVTable (m : modul) (l : list string) : list (option string) :=
  flat_map (fun n => (if String.eqb n NullFunName then [None] else []) ++ [getFunction m n]) l.
(** the constructor from serialised data, DI.cpp:262-304 *)
Definition load (m : modul) (d : data) : option hierarchy :=
  match fold_left (loadType m) (dVertexTypes d) (Some ([], [], [])), loadHierarchy m (dHierarchy d) with
  | Some (tv, vt, nt), Some hs => Some (mkH nt tv vt (dTransitiveDerivedIndex d) hs (map (loadVTable m) (dVTables d)))
  | _, _ => None
  end.
