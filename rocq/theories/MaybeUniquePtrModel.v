(** Model of psr::MaybeUniquePtr (include/phasar/Utils/MaybeUniquePtr.h) down to the packed word.

    Objects are their addresses ([N], 0 is the null pointer). Deleting an object emits an event; the
    destructor of the object itself is not modelled (it does not touch the pointers). The pointers
    of the client are slots, a slot holds the Data member of a live pointer. *)
From Coq Require Import List Bool Arith NArith.
From Verif Require Import Assoc.
Import ListNotations.
Open Scope N_scope.

(** Data: the fallback pair for alignof(T) = 1, lines 24-33, or llvm::PointerIntPair<T *, 1, bool, Traits>,
    lines 35-37 and 47, with Traits::NumLowBitsAvailable = [low]. *)
Inductive layout := Fallback | Packed (low : N).
Inductive data := DPair (p : N) (flag : bool) | DWord (w : N).

(** lines 35-47: the layout for a type with alignof(T) = 2 ^ [log2] *)
Definition layoutOf (requireAlignment : bool) (log2 : N) : layout :=
  if requireAlignment then Packed 1 else if N.eqb log2 0 then Fallback else Packed log2.

(** llvm/ADT/PointerIntPair.h (LLVM 14), PointerIntPairInfo with IntBits = 1: IntShift is
    NumLowBitsAvailable - IntBits, PointerBitMask clears the low bits. updatePointer asserts that the low
    bits of the pointer are clear (None). *)
Definition updatePointer (asserts : bool) (low w p : N) : option N :=
  if asserts && negb (N.eqb (N.land p (N.ones low)) 0) then None
  else Some (N.lor p (N.land w (N.ones low))).
Definition updateInt (low w : N) (b : bool) : N :=
  N.lor (N.ldiff w (N.shiftl 1 (low - 1))) (N.shiftl (if b then 1 else 0) (low - 1)).
Definition wordPointer (low w : N) : N := N.ldiff w (N.ones low).
Definition wordInt (low w : N) : bool := N.eqb (N.land (N.shiftr w (low - 1)) 1) 1.

Section M.
  Variable ly : layout.
  Variable asserts : bool.

  (** Data{} *)
  Definition dnull : data := match ly with Fallback => DPair 0 false | Packed _ => DWord 0 end.

  (** Data{Ptr, Owns}: PointerIntPair(PtrVal, IntVal) sets the pointer and then the integer *)
  Definition dmake (p : N) (owns : bool) : option data :=
    match ly with
    | Fallback => Some (DPair p owns)
    | Packed low => match updatePointer asserts low 0 p with Some w => Some (DWord (updateInt low w owns)) | None => None end
    end.
  Definition getPointer (d : data) : N :=
    match d with DPair p _ => p | DWord w => match ly with Packed low => wordPointer low w | Fallback => w end end.
  Definition getInt (d : data) : bool :=
    match d with DPair _ b => b | DWord w => match ly with Packed low => wordInt low w | Fallback => false end end.
  Definition setInt (d : data) (b : bool) : data :=
    match d with DPair p _ => DPair p b | DWord w => match ly with Packed low => DWord (updateInt low w b) | Fallback => d end end.

  (** owns(), lines 163-166, with its assertion *)
  Definition owns (d : data) : option bool :=
    if asserts && N.eqb (getPointer d) 0 && getInt d then None else Some (getInt d).

  Inductive event := Given (o : N) | Released (o : N) | Deleted (o : N).

  Inductive op :=
  | Default (s : nat)                        (* line 67 *)
  | FromRaw (s : nat) (p : N) (takes : bool) (* lines 69-72 *)
  | FromUnique (s : nat) (p : N)             (* lines 74-81: p is what the unique_ptr holds *)
  | MoveConstruct (s from : nat)             (* lines 83-85 *)
  | MoveAssign (s from : nat)                (* lines 96-99, 87-94 and reset(MaybeUniquePtr &&), 153-156 *)
  | AssignUnique (s : nat) (p : N)           (* lines 101-121 and reset(unique_ptr &&), 158-161 *)
  | ResetNull (s : nat)                      (* lines 146-151 *)
  | Release (s : nat)                        (* lines 141-144 *)
  | Destroy (s : nat).                       (* lines 126-134 *)

  Definition state := list (nat * data).

  (** Owner.release() hands over whatever the unique_ptr holds *)
  Definition given (p : N) (takes : bool) : list event := if takes && negb (N.eqb p 0) then [Given p] else [].

  (** [if (owns()) delete Data.getPointer();] *)
  Definition deleteOwned (d : data) : option (list event) :=
    match owns d with
    | Some true => Some [Deleted (getPointer d)]
    | Some false => Some []
    | None => None
    end.

  (** One operation: the new state and the ownership events. None: a failing assertion, or a slot used
      outside its life time (a client error). *)
  Definition step (o : op) (st : state) : option (state * list event) :=
    match o with
    | Default s => match afind s st with None => Some (aset s dnull st, []) | Some _ => None end
    | FromRaw s p takes =>
        match afind s st, dmake p (takes && negb (N.eqb p 0)) with
        | None, Some d => Some (aset s d st, given p takes)
        | _, _ => None
        end
    | FromUnique s p =>
        match afind s st, dmake p (true && negb (N.eqb p 0)) with
        | None, Some d => Some (aset s d st, given p true)
        | _, _ => None
        end
    | MoveConstruct s from =>
        match afind s st, afind from st with
        | None, Some d => Some (aset s d (aset from dnull st), [])
        | _, _ => None
        end
    | MoveAssign s from =>
        match afind s st, afind from st with
        | Some d, Some d' => Some (aset from d (aset s d' st), [])
        | _, _ => None
        end
    | AssignUnique s p =>
        match afind s st with
        | Some d =>
            match deleteOwned d, dmake p (negb (N.eqb p 0)) with
            | Some ev, Some d' => Some (aset s d' st, ev ++ given p true)
            | _, _ => None
            end
        | None => None
        end
    | ResetNull s =>
        match afind s st with
        | Some d => match deleteOwned d with Some ev => Some (aset s dnull st, ev) | None => None end
        | None => None
        end
    | Release s =>
        match afind s st with
        | Some d => Some (aset s (setInt d false) st, if getInt d then [Released (getPointer d)] else [])
        | None => None
        end
    | Destroy s =>
        match afind s st with
        | Some d => match deleteOwned d with Some ev => Some (adel s st, ev) | None => None end
        | None => None
        end
    end.

  Fixpoint run (ops : list op) (st : state) (tr : list event) : option (state * list event) :=
    match ops with
    | [] => Some (st, tr)
    | o :: r => match step o st with Some (st', ev) => run r st' (tr ++ ev) | None => None end
    end.
End M.
