(** Model of the call-target resolver that uses alias information
    (lib/PhasarLLVM/ControlFlow/Resolver/OTFResolver.cpp, below OTF.cpp, and
    getVFVectorFromIRVTable of lib/PhasarLLVM/TypeHierarchy/LLVMVFTable.cpp).

    Values are numbers; [kind] tells what they are.  Constants form a graph (the
    initializer of a global can mention the global).  Functions and calls are those
    of ResolverModel; a function has the number of the value.

    Simplifications:
    - An alias set is a list of values (of any kind).
    - The aliasee of a global alias is the one at the end of a chain of aliases.
    - Sets of functions are duplicate-free lists.
    - Undefined behaviour is [None] ([vfVector]); the loop has fuel ([None]: used up). *)
From Coq Require Import String List Bool Arith.
From Verif Require Import Assoc TypeHierarchyModel ResolverModel.
Import ListNotations.

Inductive aggregate := AStruct | AArray | AVector.
Inductive vkind :=
| KFunction
| KGlobal (name : option string) (init : option nat)
| KAlias (aliasee : nat)
| KExpr (pointer isCast isBitCast : bool) (ops : list nat)   (* pointer: the type is a pointer type *)
| KAggregate (a : aggregate) (ops : list nat)
| KConstant
| KOther.                                                     (* no constant *)

Section O.
  Variable kind : nat -> vkind.
  Variable fun_ : nat -> func.
  Definition isFunction (v : nat) : bool := match kind v with KFunction => true | _ => false end.
  Definition isAggregate (v : nat) : bool := match kind v with KAggregate _ _ => true | _ => false end.

  (** ** Virtual calls *)
  (** LLVMVFTable.cpp:86-103 *)
  Definition vfEntry (v : nat) : option nat :=
    match kind v with
    | KExpr _ _ true (o :: _) =>
        let o := match kind o with KAlias a => a | _ => o end in
        if isFunction o then Some o else None
    | _ => None
    end.
  (** getVFVectorFromIRVTable, LLVMVFTable.cpp:77-108 *)
  Fixpoint vfVector (ops : list nat) : option (list (option nat)) :=
    match ops with
    | [] => Some []
    | o :: r =>
        match kind o with
        | KAggregate AArray (_ :: _ :: l) => match vfVector r with Some t => Some (map vfEntry l ++ t) | None => None end
        | KAggregate AArray _ => None
        | _ => vfVector r
        end
    end.
  (** the body of the loop of resolveVirtualCall, OTF.cpp:90-112 *)
  Definition virtualTarget (c : call) (i : nat) (p : nat) : option (list nat) :=
    match kind p with
    | KGlobal (Some name) (Some init) =>
        if prefix "_ZTV" name then
          match kind init with
          | KAggregate AStruct ops =>
              match vfVector ops with
              | None => None
              | Some t =>
                  match nth_error t i with
                  | Some (Some f) =>
                      if eqb (fnName (fun_ f)) ""%string || eqb (fnName (fun_ f)) "__cxa_pure_virtual"%string
                         || negb (isConsistentCall c (fun_ f))
                      then Some [] else Some [f]
                  | _ => Some []
                  end
              end
          | _ => Some []
          end
        else Some []
    | _ => Some []
    end.
  Fixpoint virtualTargets (c : call) (i : nat) (aliases : list nat) (out : list nat) : option (list nat) :=
    match aliases with
    | [] => Some out
    | p :: r =>
        match virtualTarget c i p with
        | None => None
        | Some l => virtualTargets c i r (fold_left (fun s f => sinsert f s) l out)
        end
    end.
  (** OTF.cpp:66-117; [aliases]: the alias set of the called operand *)
  Definition resolveVirtualCall (c : call) (aliases : list nat) : option (list nat) :=
    match getVFTIndex c with None => Some [] | Some i => virtualTargets c i aliases [] end.

  (** ** Function pointers *)
  (** the insertion of a function with a consistent signature *)
  Definition consider (c : call) (v : nat) (s : list nat) : list nat :=
    if isFunction v && isConsistentCall c (fun_ v) then sinsert v s else s.
  (** the aggregate that initializes a global *)
  Definition initAggregate (v : nat) : list nat :=
    match kind v with KGlobal _ (Some i) => if isAggregate i then [i] else [] | _ => [] end.
  (** the operands of an aggregate, OTF.cpp:178-204; the head of a worklist is its back *)
  Definition operandStep (c : call) (st : list nat * list nat) (o : nat) : list nat * list nat :=
    let '(wl, s) := st in
    match kind o with
    | KExpr true true _ (f :: _) => (wl, consider c f s)
    | KFunction => (wl, consider c o s)
    | KAggregate _ _ => (o :: wl, s)
    | KGlobal _ _ => (initAggregate o ++ wl, s)
    | _ => (wl, s)
    end.
  Definition operands (v : nat) : list nat := match kind v with KAggregate _ ops => ops | _ => [] end.
  (** OTF.cpp:172-205 *)
  Fixpoint search (fuel : nat) (c : call) (wl visited s : list nat) : option (list nat) :=
    match fuel with
    | 0 => None
    | S fuel =>
        match wl with
        | [] => Some s
        | a :: wl =>
            if mem a visited then search fuel c wl visited s
            else let '(wl', s') := fold_left (operandStep c) (operands a) (wl, s) in search fuel c wl' (a :: visited) s'
        end
    end.
  (** GlobalVariableWL, OTF.cpp:146-155 *)
  Definition globals (p : nat) : list nat :=
    match kind p with
    | KGlobal _ _ => [p]
    | KExpr _ _ _ ops => filter (fun o => match kind o with KGlobal _ _ => true | _ => false end) ops
    | _ => []
    end.
  (** OTF.cpp:119-208 *)
  Fixpoint pointerTargets (fuel : nat) (c : call) (aliases s : list nat) : option (list nat) :=
    match aliases with
    | [] => Some s
    | p :: r =>
        let s := consider c p s in
        match search fuel c (rev (flat_map initAggregate (globals p))) [] s with
        | Some s => pointerTargets fuel c r s
        | None => None
        end
    end.
  Definition resolveFunctionPointer (fuel : nat) (c : call) (aliases : list nat) : option (list nat) := pointerTargets fuel c aliases [].
End O.

(** ** Aliases of calls *)
(** a possible target: its parameters (is it a pointer), the allocas of an array of
    __va_list_tag, whether it returns a pointer, and its exits (the value that is
    returned, or no return) *)
Record target := mkT {
  tDecl : bool; tParams : list (nat * bool); tVarArg : bool; tVaLists : list nat; tRetPtr : bool; tExits : list (option nat) }.
(** OTF.cpp:232-281 *)
Fixpoint ordinary (actuals formals : list (nat * bool)) : list (nat * nat) :=
  match actuals, formals with
  | (a, pa) :: actuals, (f, pf) :: formals => (if pa && pf then [(a, f)] else []) ++ ordinary actuals formals
  | _, _ => []
  end.
Definition getActualFormalPointerPairs (actuals : list (nat * bool)) (t : target) : list (nat * nat) :=
  ordinary actuals (tParams t) ++
  (if tVarArg t then
     match tVaLists t with
     | [] => []
     | v :: _ => flat_map (fun a : nat * bool => if snd a then [(fst a, v)] else []) (skipn (length (tParams t)) actuals)
     end
   else []).
(** OTF.cpp:36-64: the pairs of introduceAlias, in order *)
Definition handlePossibleTargets (interProcedural : bool) (callSite : nat) (actuals : list (nat * bool)) (targets : list target) : list (nat * nat) :=
  if interProcedural then []
  else flat_map (fun t =>
    if tDecl t then []
    else getActualFormalPointerPairs actuals t ++
         (if tRetPtr t then flat_map (fun e => match e with Some v => [(callSite, v)] | None => [] end) (tExits t) else [])) targets.
