(** Model of the creation of initial seeds: psr::InitialSeeds (include/phasar/DataFlow/IfdsIde/InitialSeeds.h),
    forallStartingPoints / addSeedsForStartingPoints (EntryPointUtils.h), createDefaultSeeds
    (IDETabulationProblem.h:159-178) and getEntryFunctions (lib/PhasarLLVM/ControlFlow/EntryFunctionUtils.cpp).

    A module is its list of functions; a function is its name, whether its linkage is external and its blocks (none for a
    declaration), see LLVMCFGModel.v. Functions are identified by their index, nodes are pairs of function and
    instruction. std::map is an association list without duplicate keys (the order of the keys is not modelled). *)
From Coq Require Import String List Bool Arith.
From Verif Require Import Assoc TypeHierarchyModel LLVMCFGModel.
Import ListNotations.
Open Scope nat_scope.

Record fn := mkFn { fName : string; fExternal : bool; fBlocks : list block }.
Definition module := list fn.
Notation node := (nat * inst)%type.

(** Module::getFunction: looks the name up in the symbol table; unnamed functions are not in there *)
Fixpoint findFn (i : nat) (name : string) (m : module) : option nat :=
  match m with
  | [] => None
  | f :: r => if eqb (fName f) name then Some i else findFn (S i) name r
  end.
Definition getFunction (m : module) (name : string) : option nat :=
  match name with EmptyString => None | _ => findFn 0 name m end.

(** LLVMBasedCFG::getStartPointsOf, LLVMBasedCFG.cpp:128-147 *)
Definition startPointsOf (ign : bool) (m : module) (i : nat) : list node :=
  match nth_error m i with Some f => map (pair i) (getStartPointsOf ign (fBlocks f)) | None => [] end.

Section S.
  Context {D L : Type} `{EqDec D}.
  Definition seeds := list (node * list (D * L)).

  (** InitialSeeds.h:48-50 *)
  Definition addSeed (n : node) (d : D) (v : L) (s : seeds) : seeds := aset n (aset d v (afindd [] n s)) s.

  (** lines 28-37, the constructor for sets of facts with the value [bot] = BinaryDomain::BOTTOM *)
  Definition ofSets (bot : L) (l : list (node * list D)) : seeds :=
    fold_left (fun s e => fold_left (fun s d => addSeed (fst e) d bot s) (snd e) s) l [].

  (** lines 52-66, 68-72 *)
  Definition countAll (s : seeds) : nat := fold_left (fun k e => k + length (snd e)) s 0.
  Definition countAt (n : node) (s : seeds) : nat := match afind n s with Some r => length r | None => 0 end.
  Definition containsFor (n : node) (s : seeds) : bool := match afind n s with Some _ => true | None => false end.

  (** EntryPointUtils.h:23-37 (null functions are skipped), 39-55 *)
  Definition startPoints (ign : bool) (m : module) (fs : list (option nat)) : list node :=
    flat_map (fun o => match o with None => [] | Some f => startPointsOf ign m f end) fs.
  Definition entryStartPoints (ign : bool) (m : module) (eps : list string) : list node :=
    match eps with
    | [ep] => if eqb ep "__ALL__"%string then startPoints ign m (map Some (seq 0 (length m)))
              else startPoints ign m (map (getFunction m) eps)
    | _ => startPoints ign m (map (getFunction m) eps)
    end.

  (** EntryPointUtils.h:70-92; createDefaultSeeds, IDETabulationProblem.h:166-178 *)
  Definition addSeedsFor (ign : bool) (m : module) (eps : list string) (zero : D) (bot : L) (s : seeds) : seeds :=
    fold_left (fun s n => addSeed n zero bot s) (entryStartPoints ign m eps) s.
  Definition createDefaultSeeds (ign : bool) (m : module) (eps : list string) (zero : D) (bot : L) : seeds :=
    addSeedsFor ign m eps zero bot [].
End S.
Arguments seeds : clear implicits.

(** EntryFunctionUtils.cpp:6-36: the functions the call graph starts from *)
Definition isDefinition (m : module) (i : nat) : bool :=
  match nth_error m i with Some f => match fBlocks f with [] => false | _ => true end | None => false end.
Definition getEntryFunctions (m : module) (eps : list string) : list nat :=
  let named := flat_map (fun ep => match getFunction m ep with Some i => if isDefinition m i then [i] else [] | None => [] end) eps in
  match eps with
  | [ep] => if eqb ep "__ALL__"%string then
              filter (fun i => isDefinition m i && match nth_error m i with
                                                   | Some f => negb (isEmpty (fName f)) && (fExternal f || eqb (fName f) "main"%string)
                                                   | None => false
                                                   end) (seq 0 (length m))
            else named
  | _ => named
  end.
