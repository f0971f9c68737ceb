(** Model of the values, edge functions and store handling of the instruction
    interaction analysis:
    /repo/include/phasar/PhasarLLVM/DataFlow/IfdsIde/Problems/IDEInstInteractionAnalysis.h
    and the .cpp of the same name.

    A BitVectorSet of labels is the number with those bits set (for the
    representation see BitVectorSetModel); setUnion is [N.lor] and operator== is
    equality.  report_fatal_error is [None]. *)
From Coq Require Import Bool List Arith NArith.
From Verif Require Import Assoc.
Import ListNotations.

(** LatticeDomain<BitVectorSet<e_t>> *)
Inductive lab := Top | Bot | Set_ (s : N).
#[global] Instance EqDec_lab : EqDec lab.
Proof. unfold EqDec. decide equality. apply N.eq_dec. Defined.
(** joinImpl, :1197-1207 *)
Definition joinL (l r : lab) : lab :=
  match l, r with
  | Top, _ => r
  | _, Bot => r
  | _, Top => l
  | Bot, _ => l
  | Set_ a, Set_ b => Set_ (N.lor a b)
  end.

(** edge functions, :944-1031 *)
Inductive ief := Id | AllTop | AllBottom | Kill (r : lab) | Add (d : lab).
Definition apply (f : ief) (x : lab) : lab :=
  match f with
  | Id => x
  | AllTop => Top
  | AllBottom => Bot
  | Kill r => r
  | Add d => joinL x d
  end.
Definition isConstant (f : ief) : bool := match f with AllTop | AllBottom | Kill _ => true | _ => false end.
Definition efEqb (f g : ief) : bool :=
  match f, g with
  | Id, Id | AllTop, AllTop | AllBottom, AllBottom => true
  | Kill a, Kill b | Add a, Add b => eqb a b
  | _, _ => false
  end.
(** getData, :1033-1043 *)
Definition getData (f : ief) : option lab := match f with Kill d | Add d => Some d | _ => None end.
(** defaultComposeOrNull on two EdgeFunctions, EdgeFunctionUtils.h:135-149 *)
Definition defaultCompose (f g : ief) : option ief :=
  match g with
  | Id => Some f
  | _ => if isConstant g then Some g
         else match f with AllTop | Id => Some g | AllBottom => Some f | _ => None end
  end.
(** extend, :1045-1063 *)
Definition extend (f g : ief) : option ief :=
  match defaultCompose f g with
  | Some h => Some h
  | None =>
      match getData f with
      | None => None
      | Some t => match g with
                  | Add d => Some (match f with Add _ => Add (joinL t d) | _ => Kill (joinL t d) end)
                  | _ => None
                  end
      end
  end.
(** defaultJoinOrNull on two EdgeFunctions with N = 0, EdgeFunctionUtils.h:431-448 *)
Definition defaultJoin (f g : ief) : option ief :=
  match f, g with
  | _, AllBottom | AllTop, _ => Some g
  | _, AllTop | AllBottom, _ => Some f
  | _, _ => if efEqb g f then Some f else match g with Id => Some AllBottom | _ => None end
  end.
(** combine, :1065-1088 *)
Definition combine (f g : ief) : option ief :=
  match f, g with
  | Id, _ => Some g
  | AllTop, Id => defaultJoin f g
  | _, Id => Some f
  | _, _ =>
      match defaultJoin f g with
      | Some h => Some h
      | None => match getData f, getData g with
                | Some a, Some b =>
                    let u := joinL a b in
                    Some (match f, g with Kill _, Kill _ => Kill u | _, _ => Add u end)
                | _, _ => None
                end
      end
  end.

(** ** stores; facts are values without fields, 0 the zero value *)
Section Store.
  (** the operands of the store; whether the stored value is ConstantData and
      whether it is a Constant; the allocation sites the pointer may reach (queries
      with the same arguments have the same answer) *)
  Variables (val ptr : nat) (isConstData isConst : bool) (pts : list nat).
  Definition zero := 0.
  (** flow functions, :330-357 and :388-420 *)
  Definition storeFlow (syntactic : bool) (src : nat) : list nat :=
    let dests := if syntactic then [ptr] else ptr :: pts in
    if (if syntactic then src =? ptr else (src =? ptr) || mem src pts) then []
    else src :: (if src =? val then dests else []) ++ (if isConstData && (src =? zero) then dests else []).
  (** getNormalEdgeFunction at a store, :702-720 and getStrongUpdateStoreEF,
      :661-760; [u]: the labels the user generates for the store *)
  Definition storeEdge (syntactic : bool) (u : lab) (src dst : nat) : option ief :=
    if dst =? zero then Some Id
    else if ((src =? val) || ((src =? zero) && isConst)) && ((dst =? ptr) || mem dst pts)
    then Some (if src =? zero then Kill u else Add u)
    else if syntactic && ((src =? dst) && (src =? ptr)) then Some (Kill u)
    else if negb syntactic && ((src =? dst) && ((src =? ptr) || mem src pts)) then Some (Kill (Set_ 0))
    else if src =? dst then Some Id
    else None.
End Store.

(** ** field-sensitive facts, IDEInstInteractionAnalysis.cpp:35-72 *)
(** [create]: the GEPs from the value to the base variable, outermost first *)
Definition pushField (k : nat) {A} (fd : list A) (g : A) : list A :=
  (if k <=? length fd then tl fd else fd) ++ [g].
Definition createFields (k : nat) {A} (chain : list A) : list A :=
  match chain with
  | [] => []
  | g :: r => if k =? 0 then [] else rev (fold_left (pushField k) r [g])
  end.
(** a GEP: what isSameOperationAs looks at, and the indices *)
Record gep := mkGep { gty : nat; gidx : list nat }.
Record fact := mkFact { base : nat; fields : list gep }.
(** operator==, :94-116: isSameOperationAs does not compare operands *)
Fixpoint fieldsEqb (a b : list gep) : bool :=
  match a, b with
  | [], [] => true
  | x :: a', y :: b' => (gty x =? gty y) && fieldsEqb a' b'
  | _, _ => false
  end.
Definition factEqb (a b : fact) : bool := (base a =? base b) && fieldsEqb (fields a) (fields b).
