(** Model of the edge functions shipped with phasar,
    /repo/include/phasar/DataFlow/IfdsIde/EdgeFunctionUtils.h ("EFUtils.h"),
    and of /repo/include/phasar/DataFlow/IfdsIde/EdgeFunction.h ("EdgeFunction.h").

    Edge functions are type-erased objects; here a syntax tree over the library
    classes.  Client classes appear as opaque leaves [EUser u] and, for client
    classes derived from EdgeFunctionComposer, as [EComp f g]; their virtual
    functions are parameters.  Allocation, reference counting and caching of the
    objects are not modelled: an object is its value, except for operator<. *)
From Coq Require Import List Bool Arith.
Import ListNotations.

Inductive ef (L U : Type) :=
| EId                                            (* EdgeIdentity, EFUtils.h:23 *)
| EBot                                           (* AllBottom, EFUtils.h:43 *)
| ETop                                           (* AllTop, EFUtils.h:83 *)
| EConst (v : L)                                 (* ConstantEdgeFunction, EFUtils.h:152 *)
| EJoin (n : nat) (seed : L) (vec : list (ef L U))   (* JoinEdgeFunction<L,N>, EFUtils.h:298 *)
| EJComp (n : nat) (first second : ef L U)       (* JoinEdgeFunction<L,N>::compose's DefaultJoinEdgeFunctionComposer, EFUtils.h:321 *)
| EComp (first second : ef L U)                  (* client class derived from EdgeFunctionComposer, EFUtils.h:243 *)
| EUser (u : U).                                 (* any other client class *)
Arguments EId {L U}. Arguments EBot {L U}. Arguments ETop {L U}. Arguments EConst {L U}.
Arguments EJoin {L U}. Arguments EJComp {L U}. Arguments EComp {L U}. Arguments EUser {L U}.

(** JoinLatticeTraits<L> and operator== of L *)
Record lops (L : Type) := mkLops {
  ljoin : L -> L -> L; ltop : L; lbot : L; leqb : L -> L -> bool }.
Arguments ljoin {L}. Arguments ltop {L}. Arguments lbot {L}. Arguments leqb {L}.

(** The member functions of client classes *)
Record clientops (L U : Type) := mkClient {
  uapply : U -> L -> L;
  uconst : U -> bool;
  ueqb : U -> U -> bool;
  ucompose : U -> ef L U -> ef L U;
  ujoin : U -> ef L U -> ef L U;
  cjoin : ef L U -> ef L U -> ef L U -> ef L U      (* join of EComp First Second with Other *)
}.
Arguments uapply {L U}. Arguments uconst {L U}. Arguments ueqb {L U}.
Arguments ucompose {L U}. Arguments ujoin {L U}. Arguments cjoin {L U}.

Section EF.
  Context {L U : Type}.
  Variable O : lops L.
  Variable C : clientops L U.
  (** EdgeFunctionBase::IsSOOCandidate<ConstantEdgeFunction<L>> *)
  Variable soo : bool.
  (** EdgeFunction operator<, EdgeFunction.h:546-553, compares the addresses of
      objects that are not ==.  An address is not part of the value; [ltb k] is
      the outcome for the objects compared with k elements left to merge. *)
  Variable ltb : nat -> ef L U -> ef L U -> bool.

  (** computeTarget: EFUtils.h:26, 51, 91, 157, 246, 302-312 *)
  Fixpoint apply (f : ef L U) (x : L) : L :=
    match f with
    | EId => x
    | EBot => lbot O
    | ETop => ltop O
    | EConst v => v
    | EJoin _ seed vec =>
        (fix go (acc : L) (l : list (ef L U)) : L :=
           match l with
           | [] => acc
           | e :: r => let acc' := ljoin O acc (apply e x) in
                       if leqb O acc' (lbot O) then acc' else go acc' r
           end) seed vec
    | EJComp _ f g | EComp f g => apply g (apply f x)
    | EUser u => uapply C u x
    end.

  (** isConstant, EdgeFunction.h:560; EFUtils.h:73, 113, 211 *)
  Definition isConstant (f : ef L U) : bool :=
    match f with
    | EBot | ETop | EConst _ => true
    | EUser u => uconst C u
    | _ => false
    end.

  (** operator==, EdgeFunction.h:426-436 with the classes' operator==
      (EFUtils.h:218-230, 280-284, 358-365) *)
  Fixpoint efEqb (f g : ef L U) : bool :=
    match f, g with
    | EId, EId | EBot, EBot | ETop, ETop => true
    | EConst a, EConst b => leqb O a b
    | EJoin n s v, EJoin m t w =>
        Nat.eqb n m && leqb O s t &&
        (fix go (l r : list (ef L U)) : bool :=
           match l, r with
           | [], [] => true
           | a :: l', b :: r' => efEqb a b && go l' r'
           | _, _ => false
           end) v w
    | EJComp n a b, EJComp m c d => Nat.eqb n m && efEqb a c && efEqb b d
    | EComp a b, EComp c d => efEqb a c && efEqb b d
    | EUser u, EUser w => ueqb C u w
    | _, _ => false
    end.

  (** defaultComposeOrNull, EFUtils.h:122-133 *)
  Definition defaultComposeOrNull (This g : ef L U) : option (ef L U) :=
    match g with
    | EId => Some This
    | _ => if isConstant g then Some g else None
    end.

  Definition constOf (v : L) : ef L U :=
    if leqb O (lbot O) v then EBot else if leqb O (ltop O) v then ETop else EConst v.

  (** compose, EFUtils.h:33 (EdgeIdentity), 61 (AllBottom), 101 (AllTop),
      163-203 (Constant), 314-338 (Join), 257-267 (Composer) *)
  Fixpoint compose (f : ef L U) (g : ef L U) : ef L U :=
    match f with
    | EId => g
    | EBot => if isConstant g then g else EBot
    | ETop => match g with EId => ETop | _ => g end
    | EConst v =>
        match defaultComposeOrNull f g with
        | Some h => h
        | None =>
            let c := apply g v in
            if negb soo && leqb O c v then f else constOf c
        end
    | EJoin n s vec =>
        match defaultComposeOrNull f g with
        | Some h => h
        | None => EJComp n f g
        end
    | EJComp _ a b | EComp a b =>
        match defaultComposeOrNull f g with
        | Some h => h
        | None => compose a (compose b g)
        end
    | EUser u => ucompose C u g
    end.

  (** std::set_union with operator<; the result is specified only for sorted
      inputs, this is the merge loop of the library implementations *)
  Fixpoint set_union (l : list (ef L U)) : list (ef L U) -> list (ef L U) :=
    match l with
    | [] => fun r => r
    | a :: l' =>
        fix inner (r : list (ef L U)) : list (ef L U) :=
          match r with
          | [] => l
          | b :: r' =>
              let k := length l + length r in
              if ltb k a b then a :: set_union l' r
              else if ltb k b a then b :: inner r'
              else a :: set_union l' r'
          end
    end.

  (** GetEFArrayAndSeed, EFUtils.h:370-376 *)
  Definition arrayAndSeed (n : nat) (f : ef L U) : list (ef L U) * L :=
    match f with
    | EJoin m s v => if Nat.eqb n m then (v, s) else ([f], ltop O)
    | _ => ([f], ltop O)
    end.

  (** JoinEdgeFunction<L,N>::create, EFUtils.h:367-395 *)
  Definition create (n : nat) (f g : ef L U) : ef L U :=
    let (lv, ls) := arrayAndSeed n f in
    let (rv, rs) := arrayAndSeed n g in
    let s := ljoin O ls rs in
    if leqb O s (lbot O) then EBot
    else
      let v := set_union lv rv in
      if Nat.ltb n (length v) then EBot else EJoin n s v.

  (** defaultJoinOrNull<L,N>, EFUtils.h:410-427 (L has JoinLatticeTraits) *)
  Definition defaultJoinOrNull (n : nat) (This g : ef L U) : option (ef L U) :=
    match g with
    | EBot => Some g
    | ETop => Some This
    | _ =>
        if efEqb g This then Some This
        else match g with
             | EId => if Nat.ltb 0 n then Some (create n This g) else Some EBot
             | _ => None
             end
    end.

  (** join of the classes that never delegate: JoinEdgeFunction (507-516), its
      composer (323-334), client classes *)
  Definition joinOpaque (f g : ef L U) : ef L U :=
    match f with
    | EJoin n _ _ =>
        match defaultJoinOrNull n f g with Some h => h | None => create n f g end
    | EJComp n _ _ =>
        match g with
        | EBot => g
        | ETop => f
        | _ => if efEqb g f then f else create n f g
        end
    | EComp a b => cjoin C a b g
    | EUser u => ujoin C u g
    | _ => f
    end.

  (** ConstantEdgeFunction::join, EFUtils.h:464-505.  For constant client
      functions [computeTarget(top)]. *)
  Definition joinConst (v : L) (g : ef L U) : ef L U :=
    match defaultJoinOrNull 0 (EConst v) g with
    | Some h => h
    | None =>
        if negb (isConstant g) then joinOpaque g (EConst v)
        else
          let o := apply g (ltop O) in
          let j := ljoin O v o in
          if leqb O (lbot O) j then EBot
          else if negb soo && leqb O j o then g
          else if negb soo && leqb O j v then EConst v
          else EConst j
    end.

  (** join: EFUtils.h:449-462 (EdgeIdentity), 67 (AllBottom), 107 (AllTop) and
      the above *)
  Definition join (f g : ef L U) : ef L U :=
    match f with
    | EId =>
        match g with
        | EId | ETop => EId
        | EBot => EBot
        | EConst v => joinConst v EId
        | _ => joinOpaque g EId
        end
    | EBot => EBot
    | ETop => g
    | EConst v => joinConst v g
    | _ => joinOpaque f g
    end.
End EF.
