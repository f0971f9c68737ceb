(** Model of the virtual function tables and of the call-target resolvers
    (lib/PhasarLLVM/TypeHierarchy/LLVMVFTable.cpp, lib/PhasarLLVM/ControlFlow/LLVMVFTableProvider.cpp,
    lib/PhasarLLVM/ControlFlow/Resolver/{Resolver,NOResolver,CHAResolver,RTAResolver,DTAResolver}.cpp,
    the signature matching of lib/PhasarLLVM/Utils/LLVMShorthands.cpp).

    Functions are pointers, modelled as [nat]; their attributes are given by the function [fun_].
    Sets of functions are duplicate-free lists. Undefined behaviour is [None]. The object graph of DTA
    (CachedTypeGraph) is modelled in TypeGraphModel.v, OTFResolver in OTFModel.v. *)
From Coq Require Import String List Bool Arith NArith.
From Verif Require Import Assoc TypeHierarchyModel.
Import ListNotations.
Open Scope nat_scope.

(** LLVM types as far as the signature matching distinguishes them: integers by width, typed and
    opaque pointers, structs, everything else by type id and identity. *)
Inductive lty :=
| TInt (bits : nat)
| TPtr (elem : lty)
| TOpaque
| TStruct (t : nat)
| TOther (kind ident : nat).

Definition lty_eq_dec : forall x y : lty, {x = y} + {x <> y}.
Proof. decide equality; apply Nat.eq_dec. Defined.
#[global] Instance EqDec_lty : EqDec lty := lty_eq_dec.

Record func := mkFunc {
  fnName : string; fnParams : list lty; fnRet : lty; fnVarArg : bool; fnAddressTaken : bool }.

(** A call: the argument types, whether the first argument has the sret attribute, the function type
    of the call and the shape of the called operand. *)
Inductive operand :=
| OLoadGep (op1 : option N)   (* load of a getelementptr; its operand 1 if it is a constant integer *)
| OOperand.                   (* anything else *)
Record call := mkCall {
  cArgs : list lty; cSRet : bool; cParams : list lty; cRet : lty; cOp : operand }.

Definition vtable := list (option nat).

(** * Virtual tables *)

(** LLVMVFTable.cpp:89-95: the function behind a bitcast, through aliases *)
Fixpoint aliasee (v : cval) : option nat :=
  match v with VAlias _ a => aliasee a | VFunction f _ => Some f | _ => None end.

(** LLVMVFTable.cpp:75-108. std::next(begin, 2) on a shorter array is undefined. *)
Definition entry (e : elt) : option nat := match e with EBitCast v => aliasee v | EOther => None end.
Fixpoint vfVector (ops : list cop) : option vtable :=
  match ops with
  | [] => Some []
  | OElt _ :: r => vfVector r
  | OArray (_ :: _ :: l) :: r => match vfVector r with Some t => Some (map entry l ++ t) | None => None end
  | OArray _ :: _ => None
  end.

(** LLVMVFTable.cpp:26-31 *)
Definition getFunction (t : vtable) (i : nat) : option nat :=
  match nth_error t i with Some e => e | None => None end.

Section M.
  Variable nm : nat -> string.
  Variable demangle : string -> string.
  Variable fun_ : nat -> func.

  (** LLVMVFTableProvider.cpp:40-50 (the first vtable with a name wins) *)
  Definition tvMap (gs : list global) : list (string * global) :=
    fold_left (fun m g => if isVTable demangle (gName g) then
                            (if mem (clearTV demangle (gName g)) (akeys m) then m else m ++ [(clearTV demangle (gName g), g)])
                          else m) gs [].

  (** LLVMVFTableProvider.cpp:14-37 *)
  Definition getVirtualFunctions (tv : list (string * global)) (t : styp) : option vtable :=
    match afind (clearType nm t) tv with
    | Some g => match gInit g with IStruct ops => vfVector ops | _ => Some [] end
    | None => Some []
    end.

  Definition vtp := list (styp * vtable).

  (** LLVMVFTableProvider.cpp:52-56 *)
  Fixpoint addTables (tv : list (string * global)) (ts : list styp) (p : vtp) : option vtp :=
    match ts with
    | [] => Some p
    | t :: r =>
        match getVirtualFunctions tv t with
        | Some v => addTables tv r (if mem t (akeys p) then p else p ++ [(t, v)])
        | None => None
        end
    end.
  Definition makeVTP (m : modul) : option vtp := addTables (tvMap (mGlobals m)) (mTypes m) [].

  (** LLVMVFTableProvider.cpp:61-70 *)
  Definition hasVFTable (p : vtp) (t : styp) : bool := mem t (akeys p).
  Definition getVFTableOrNull (p : vtp) (t : styp) : option vtable := afind t p.

  (** * Call sites *)

  (** Resolver.cpp:41-58; the 64-bit index is returned as an unsigned int *)
  Definition getVFTIndex (c : call) : option nat :=
    match cOp c with OLoadGep (Some n) => Some (N.to_nat (N.modulo n 4294967296)) | _ => None end.

  (** Resolver.cpp:60-87 *)
  Definition getReceiverType (c : call) : option styp :=
    if (length (cArgs c) =? 0) || (cSRet c && (length (cArgs c) <? 2)) then None
    else match nth_error (cArgs c) (if cSRet c then 1 else 0) with
         | Some (TPtr (TStruct t)) => Some t
         | _ => None
         end.

  (** LLVMShorthands.cpp:77-106 *)
  Fixpoint typeMatch (actual formal : lty) : bool :=
    if eqb actual formal then true else
    match actual, formal with
    | TPtr a, TPtr f => eqb f (TInt 8) || typeMatch a f
    | TPtr _, TOpaque | TOpaque, TPtr _ | TOpaque, TOpaque => true
    | TStruct _, TStruct _ => true
    | _, _ => false
    end.

  (** LLVMShorthands.cpp:108-130 with ExactMatch = false *)
  Definition matchesSignature (f : func) (params : list lty) (ret : lty) : bool :=
    (length (fnParams f) =? length params) && eqb (fnRet f) ret
    && forallb (fun p => typeMatch (fst p) (snd p)) (combine params (fnParams f)).

  (** Resolver.cpp:97-109 *)
  Definition isConsistentCall (c : call) (f : func) : bool :=
    if length (cArgs c) <? length (fnParams f) then false
    else if negb (length (cArgs c) =? length (fnParams f)) && negb (fnVarArg f) then false
    else matchesSignature f (cParams c) (cRet c).

  (** Resolver.cpp:111-128 *)
  Definition isVirtualCall (p : vtp) (c : call) : bool :=
    match getReceiverType c with
    | None => false
    | Some t => hasVFTable p t && match getVFTIndex c with Some _ => true | None => false end
    end.

  (** Resolver.cpp:137-151 *)
  Definition getNonPureVirtualVFTEntry (p : vtp) (t : styp) (i : nat) (c : call) : option nat :=
    match getVFTableOrNull p t with
    | Some v =>
        match getFunction v i with
        | Some f => if negb (eqb (fnName (fun_ f)) "__cxa_pure_virtual"%string) && isConsistentCall c (fun_ f) then Some f else None
        | None => None
        end
    | None => None
    end.

  (** the targets of a list of types *)
  Definition collect (p : vtp) (i : nat) (c : call) (ts : list styp) : list nat :=
    fold_left (fun s t => match getNonPureVirtualVFTEntry p t i c with Some f => sinsert f s | None => s end) ts [].

  (** getSubTypes(nullptr) is empty *)
  Definition subTypesOf (h : th) (r : option styp) : list styp :=
    match r with Some t => getSubTypes h t | None => [] end.

  (** CHAResolver.cpp:43-81 *)
  Definition chaVirtual (h : th) (p : vtp) (c : call) : list nat :=
    match getVFTIndex c with
    | None => []
    | Some i => collect p i c (subTypesOf h (getReceiverType c))
    end.

  (** RTAResolver.cpp:45-93 *)
  Definition rtaVirtual (allocated : list styp) (h : th) (p : vtp) (c : call) : list nat :=
    match getVFTIndex c with
    | None => []
    | Some i =>
        let reachable := subTypesOf h (getReceiverType c) in
        match collect p i c (filter (fun t => mem t reachable) allocated) with
        | [] => chaVirtual h p c
        | l => l
        end
    end.

  (** DTAResolver.cpp:166-219; [types] are the types the object graph holds for the receiver *)
  Definition dtaVirtual (types : list styp) (h : th) (p : vtp) (c : call) : list nat :=
    match getVFTIndex c with
    | None => []
    | Some i =>
        match collect p i c types with
        | [] => chaVirtual h p c
        | l => l
        end
    end.

  (** Resolver.cpp:168-184 *)
  Definition functionPointer (fs : list nat) (c : call) : list nat :=
    fold_left (fun s f => if fnAddressTaken (fun_ f) && isConsistentCall c (fun_ f) then sinsert f s else s) fs [].

  (** Resolver.cpp:160-166 for a resolver whose resolveVirtualCall is [virt] *)
  Definition resolveIndirectCall (virt : call -> list nat) (fs : list nat) (p : vtp) (c : call) : list nat :=
    if isVirtualCall p c then virt c else functionPointer fs c.

  (** * RTA: allocated types *)

  (** users of the result of a heap allocation *)
  Inductive castUser := UCall (callee : option nat) | UOtherUser.
  Inductive allocUser := UBitCast (dest : lty) (users : list castUser) | UNoCast.
  Inductive rinstr :=
  | RAlloca (t : lty)
  | RCall (callee : option nat) (users : list allocUser)
  | ROther.

  (** LLVMShorthands.cpp:69-73 *)
  Definition isHeapAllocating (f : func) : bool :=
    existsb (eqb (fnName f)) ["_Znwm"; "_Znam"; "_ZnwPv"; "malloc"; "calloc"; "realloc"]%string.

  (** RTAResolver.cpp:133-146: a call with the casted pointer's type as its first parameter. A called
      function without parameters makes the code dereference a null pointer. *)
  Fixpoint ctorCalls (dest : lty) (t : styp) (us : list castUser) (s : list styp) : option (list styp) :=
    match us with
    | [] => Some s
    | UCall (Some f) :: r =>
        match nth_error (fnParams (fun_ f)) 0 with
        | None => None
        | Some p => ctorCalls dest t r (if eqb p dest then sinsert t s else s)
        end
    | _ :: r => ctorCalls dest t r s
    end.

  (** RTAResolver.cpp:121-148 *)
  Fixpoint heapUsers (us : list allocUser) (s : list styp) : option (list styp) :=
    match us with
    | [] => Some s
    | UBitCast (TPtr (TStruct t)) cs :: r =>
        match ctorCalls (TPtr (TStruct t)) t cs s with Some s' => heapUsers r s' | None => None end
    | _ :: r => heapUsers r s
    end.

  (** RTAResolver.cpp:98-157; [is] are the instructions of all functions *)
  Fixpoint allocatedTypes (is : list rinstr) (s : list styp) : option (list styp) :=
    match is with
    | [] => Some s
    | RAlloca (TStruct t) :: r => allocatedTypes r (sinsert t s)
    | RCall (Some f) us :: r =>
        if isHeapAllocating (fun_ f) then
          match heapUsers us s with Some s' => allocatedTypes r s' | None => None end
        else allocatedTypes r s
    | _ :: r => allocatedTypes r s
    end.
End M.

(** * Creation *)
Inductive cgType := NORESOLVE | CHA | RTA | DTA | VTA | OTF | Invalid.

(** Resolver.cpp:188-221: the resolver kind created. [asserts] tells whether assertions are compiled in;
    None: an assertion fails, a fatal error is reported, or (OTF without assertions) the resolver
    holds a null alias-information reference. [th] and [pt] tell whether the pointers are non-null. *)
Definition create (asserts : bool) (ty : cgType) (th pt : bool) : option cgType :=
  match ty with
  | NORESOLVE => Some NORESOLVE
  | CHA => if asserts && negb th then None else Some CHA
  | RTA => if asserts && negb th then None else Some RTA
  | DTA => if asserts && negb th then None else Some DTA
  | OTF => if pt then Some OTF else None
  | VTA | Invalid => None
  end.

(** LLVMBasedCallGraphBuilder.cpp:273-287: the resolver used by buildLLVMBasedCallGraph for a call-graph
    type. The alias information is created when missing, but the call of Resolver::create omits it. *)
Definition builderResolver (asserts : bool) (ty : cgType) (pt : bool) : option cgType :=
  let _aliasInfo := match ty with OTF => true | _ => pt end in
  create asserts ty true false.
