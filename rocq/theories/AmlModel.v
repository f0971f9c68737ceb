(** Model of the abstract memory locations of the extended taint analysis:
    AbstractMemoryLocation.cpp ("AML.cpp") and
    AbstractMemoryLocationFactory.cpp ("Factory.cpp") in
    /repo/lib/PhasarLLVM/DataFlow/IfdsIde/Problems/ExtendedTaintAnalysis, with
    the classes of AbstractMemoryLocationFactory.h ("Factory.h") in
    /repo/include/phasar/PhasarLLVM/DataFlow/IfdsIde/Problems/ExtendedTaintAnalysis.

    An llvm::Value is one of: a load, a cast or a getelementptr instruction
    with its pointer operand; another value, of which only is kept whether it
    is a Constant, AllocaInst, Argument or CallBase.  Numbers tell apart
    instructions with the same operand.  A getelementptr carries what
    accumulateConstantOffset finds for it under the data layout; [None] stands
    for indices which are not constant.  A location is the record it points
    to; that there is one object per record is what the FoldingSet is for (see
    C56).  The FoldingSetNodeID of a profile is the profiled triple itself,
    i.e. that ids of different triples differ is assumed.  Offsets are integers
    without bounds; lifetimes are natural numbers, [NwLifetime - Offs.size() + 1]
    wraps back to the natural number it is.  A failing assertion is [None].
    Not modelled: the diagnostics under XTAINT_DIAGNOSTICS, printing, hashing,
    logging, the alignment of memory. *)
From Coq Require Import List Bool Arith ZArith.
From Verif Require Import Assoc.
Import ListNotations.
Local Open Scope Z_scope.

Inductive value : Type :=
| Zero                                        (* LLVMZeroValue, a global variable *)
| Base (n : nat) (definesItself : bool)       (* Constant, AllocaInst, Argument, CallBase; or none of these *)
| Load (n : nat) (ptr : value)
| Cast (n : nat) (op : value)
| Gep (n : nat) (ptr : value) (off : option Z).

#[global] Instance EqDec_value : EqDec value.
Proof. intros x y; change ({x = y} + {x <> y}); repeat decide equality. Defined.

(** AbstractMemoryLocationStorage, AML.cpp:24-28, 50-56 *)
Record location : Type := mkLoc { base : value; offsets : list Z; lifetime : nat }.

(** AML.cpp:31-32, Factory.cpp:253-258 *)
Definition zeroLocation : location := mkLoc Zero [] 0.
Definition isZero (a : location) : bool := eqb (base a) Zero.

(** AML.cpp:73-79 *)
Definition minus (a tv : location) : list Z :=
  if (length (offsets tv) <? length (offsets a))%nat
  then skipn (Nat.max 1 (length (offsets tv)) - 1) (offsets a)
  else skipn (Nat.max 1 (length (offsets a)) - 1) (offsets tv).

(** AML.cpp:81-85 *)
Definition equivalentOffsets (a tv : location) : bool :=
  let m := Nat.min (length (offsets a)) (length (offsets tv)) in
  eqb (firstn m (offsets a)) (firstn m (offsets tv)).
(** AML.cpp:87-94 *)
Definition equivalent (a tv : location) : bool :=
  if eqb (base a) (base tv) then equivalentOffsets a tv else false.
(** AML.cpp:96-107 *)
Definition equivalentExceptPointerArithmetics (a tv : location) (paLevel : nat) : bool :=
  if eqb (base a) (base tv) then
    let m := Nat.min (length (offsets a)) (length (offsets tv)) in
    if (m <=? paLevel)%nat then true
    else eqb (firstn (m - paLevel) (offsets a)) (firstn (m - paLevel) (offsets tv))
  else false.

(** AML.cpp:139-163; [pt] says of which values the alias information reports
    MustAlias, [inFunction] gives the function of an instruction or argument *)
Section Aliases.
  Context (pt : value -> value -> bool) (inFunction : value -> option nat).

  (** AML.cpp:109-137 *)
  Definition mustAlias (a tv : location) : bool :=
    if negb (eqb (base a) (base tv)) &&
       (negb (eqb (inFunction (base a)) (inFunction (base tv))) || negb (pt (base a) (base tv)))
    then false else equivalentOffsets a tv.

  (** AML.cpp:151-163 *)
  Definition isProperPrefixOfAlias (a larger : location) : bool :=
    if negb (eqb (base a) (base larger)) && negb (pt (base a) (base larger)) then false
    else if (length (offsets larger) <=? length (offsets a))%nat then false
    else eqb (offsets a) (firstn (length (offsets a)) (offsets larger)).
End Aliases.

(** AML.cpp:139-149 *)
Definition isProperPrefixOf (a larger : location) : bool :=
  if negb (eqb (base a) (base larger)) then false
  else if (length (offsets larger) <=? length (offsets a))%nat then false
  else eqb (offsets a) (firstn (length (offsets a)) (offsets larger)).

(** AML.cpp:165-180, [None]: the assertion fails *)
Definition profile : Type := value * list Z * bool.
Definition makeProfile (v : value) (offs : list Z) (life : nat) : option profile :=
  if (life =? 0)%nat || negb (eqb offs []) then Some (v, offs, negb (life =? 0)%nat) else None.
Definition profileOf (a : location) : profile := (base a, offsets a, negb (lifetime a =? 0)%nat).

(** Factory.h:73-80 *)
Record factory : Type := mkFactory { pool : list location; cache : list (value * location) }.
Definition emptyFactory : factory := mkFactory [] [].

Definition result : Type := option (factory * location).

(** Factory.cpp:153-165 *)
Definition getOrCreate (f : factory) (v : value) (offs : list Z) (life : nat) : result :=
  match makeProfile v offs life with
  | None => None
  | Some p =>
    match find (fun a => eqb (profileOf a) p) (pool f) with
    | Some a => Some (f, a)
    | None => let a := mkLoc v offs life in Some (mkFactory (a :: pool f) (cache f), a)
    end
  end.

(** Factory.cpp:167-172 *)
Definition getOrCreateBase (f : factory) (v : value) (bound : nat) : result :=
  getOrCreate f v [0] (if (bound =? 0)%nat then 0%nat else bound - 1)%nat.

(** Offs.back() += d; no effect where the C++ code has undefined behaviour,
    which is excluded at every use *)
Definition addBack (os : list Z) (d : Z) : list Z := removelast os ++ [last os 0 + d].

(** the loop of Factory.cpp:201-228; offsets in the order of the vector, i.e.
    the one of the innermost indirection last *)
Fixpoint walk (bound : nat) (v : value) (os : list Z) (ver : nat) : value * list Z * nat :=
  match v with
  | Load _ p => walk bound p (os ++ [0]) (S ver)
  | Cast _ p => walk bound p os ver
  | Gep _ p (Some d) => walk bound p (addBack os d) ver
  | Gep _ p None => walk bound p [0] bound
  | Zero | Base _ _ => (v, os, ver)
  end.

(** Factory.cpp:183-184 *)
Definition definesItself (v : value) : bool :=
  match v with Zero => true | Base _ b => b | _ => false end.

Definition remember (v : value) (r : result) : result :=
  match r with
  | Some (f, a) => Some (mkFactory (pool f) (aset v a (cache f)), a)
  | None => None
  end.

(** Factory.cpp:174-251 *)
Definition create (bound : nat) (f : factory) (v : value) : result :=
  match afind v (cache f) with
  | Some a => Some (f, a)
  | None =>
    if definesItself v then remember v (getOrCreateBase f v bound)
    else
      let '(b, os, ver) := walk bound v [0] 1 in
      let offs := rev os in
      let life := (bound - Nat.min ver bound)%nat in
      if (bound <? length offs)%nat then
        if (life =? 0)%nat then remember v (getOrCreate f b (firstn bound offs) life) else None
      else remember v (getOrCreate f b offs life)
  end.

(** Factory.cpp:260-274 *)
Definition limit (f : factory) (a : location) : result :=
  getOrCreate f (base a) (removelast (offsets a)) 0.

(** Factory.cpp:276-318 *)
Definition withIndirectionOf (f : factory) (a : location) (ind : list Z) : result :=
  if (lifetime a =? 0)%nat then Some (f, a)
  else if eqb ind [] then getOrCreate f (base a) (offsets a ++ [0]) (lifetime a - 1)
  else
    let ind' := if (lifetime a <? length ind)%nat then firstn (lifetime a) ind else ind in
    getOrCreate f (base a) (offsets a ++ ind') (lifetime a - length ind').

(** Factory.cpp:320-344; the instruction is its constant offset *)
Definition withOffset (f : factory) (a : location) (gep : option Z) : result :=
  if (lifetime a =? 0)%nat then Some (f, a)
  else match gep with
       | None => limit f a
       | Some d => if eqb (offsets a) [] then None
                   else getOrCreate f (base a) (addBack (offsets a) d) (lifetime a)
       end.

(** Factory.cpp:346-385 *)
Definition withOffsets (f : factory) (a : location) (offs : list Z) : result :=
  match offs with
  | [] => Some (f, a)
  | front :: _ =>
    if (lifetime a =? 0)%nat then Some (f, a)
    else if eqb (offsets a) [] then None
    else
      let cpy := addBack (offsets a) front in
      let offs' := if (lifetime a <? length offs - 1)%nat then firstn (lifetime a + 1) offs else offs in
      getOrCreate f (base a) (cpy ++ tl offs') (lifetime a + 1 - length offs')
  end.

(** Factory.cpp:387-422 *)
Definition withTransferTo (f : factory) (a from : location) (to : value) : result :=
  if (lifetime a =? 0)%nat && (lifetime from =? 0)%nat then getOrCreateBase f to 0
  else
    let '(larger, smaller) :=
      if (length (offsets from) <=? length (offsets a))%nat
      then (offsets a, offsets from) else (offsets from, offsets a) in
    let offs := if eqb smaller [] then larger else skipn (length smaller - 1) larger in
    let offs' := if eqb offs [] then [] else removelast offs ++ [0] in
    getOrCreate f to offs' (Nat.min (lifetime a) (lifetime from)).

(** Factory.cpp:424-469 *)
Definition withTransferFrom (f : factory) (a to : location) : result :=
  if (lifetime a =? 0)%nat then Some (f, to)
  else
    let offs :=
      match offsets a with
      | [] => offsets to
      | o :: os => (if eqb (offsets to) [] then [] else addBack (offsets to) o) ++ os
      end in
    let maximum := Nat.min (length (offsets a) + lifetime a) (length (offsets to) + lifetime to) in
    let offs' := if (maximum <? length offs)%nat then firstn maximum offs else offs in
    getOrCreate f (base to) offs' (Nat.min (lifetime a) (maximum - length offs')).

(** What the clients of a factory do, with a fixed bound
    (IDEExtendedTaintAnalysis.cpp:767-769). *)
Inductive request : Type :=
| Create (v : value)
| Indirection (a : location) (ind : list Z)
| Offset (a : location) (gep : option Z)
| Offsets (a : location) (offs : list Z)
| TransferTo (a from : location) (to : value)
| TransferFrom (a to : location).

Definition serve (bound : nat) (f : factory) (r : request) : result :=
  match r with
  | Create v => create bound f v
  | Indirection a ind => withIndirectionOf f a ind
  | Offset a gep => withOffset f a gep
  | Offsets a offs => withOffsets f a offs
  | TransferTo a from to => withTransferTo f a from to
  | TransferFrom a to => withTransferFrom f a to
  end.

(** The store flow function's new fact, IDEExtendedTaintAnalysis.cpp:163-173
    (propagateAtStore) without the aliases of the pointer operand *)
Definition storedFact (f : factory) (source val mem : location) : result :=
  withIndirectionOf f mem (minus source val).

(** The memory pool, Factory.h:37-70, in units of a pointer; sizeof of
    AbstractMemoryLocationImpl is three pointers (the FoldingSet's link, the
    base pointer and two 32 bit numbers), blocks are listed newest first by
    their number of entries, [pos] and [stop] (End) count from the start of the
    newest block; an object is (number of older blocks, start, size). *)
Definition minPointers : Z := 3.
Definition perBlock : Z := (minPointers + 3) * 1024.
Record allocator : Type := mkAlloc { blocks : list Z; pos : Z; stop : Z; initialCapacity : Z }.
Definition object : Type := nat * Z * Z.

(** Factory.cpp:57-68; the parameter hides the member, which stays 0 *)
Definition newAllocator (capacity : Z) : allocator :=
  if capacity <=? 1024 then mkAlloc [] 0 0 0
  else mkAlloc [(minPointers + 3) * capacity] 0 ((minPointers + 3) * capacity) 0.

(** Factory.cpp:100-128 *)
Definition allocate (m : allocator) (numOffsets : nat) : allocator * object :=
  let required := minPointers + Z.of_nat numOffsets in
  let m1 := if stop m - pos m <? required
            then mkAlloc (perBlock :: blocks m) 0 perBlock (initialCapacity m) else m in
  (mkAlloc (blocks m1) (pos m1 + required) (stop m1) (initialCapacity m1),
   (length (blocks m1) - 1, pos m1, required)%nat).

(** Factory.cpp:70-83: the number of entries each block is destroyed with *)
Definition destroyed (m : allocator) : list Z :=
  match blocks m with
  | [] => []
  | _ :: older => (minPointers + 3) * initialCapacity m :: map (fun _ => perBlock) older
  end.
