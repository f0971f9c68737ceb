(** What the memory management of psr::EdgeFunction is to achieve, independently of how it is done: EdgeFunctions behave like values,
    an object lives exactly as long as an EdgeFunction of the client leads to it. *)
From Coq Require Import List Bool Arith NArith.
From Verif Require Import Assoc EdgeFunctionMemModel.
Import ListNotations.

(** An object is needed if an EdgeFunction of the client or a member of a needed object refers to it. *)
Inductive needed (st : state) : nat -> Prop :=
| needed_slot s ty c a : afind s (slots st) = Some (HHeap ty c a) -> needed st a
| needed_kid p o ty c a : needed st p -> afind p (heap st) = Some o -> In (HHeap ty c a) (oKids o) -> needed st a.

(** all EdgeFunctions there are, and those of them that refer to [a] *)
Definition everything (st : state) : list handle := map snd (slots st) ++ flat_map (fun e => oKids (snd e)) (heap st).
Definition refersTo (a : nat) (h : handle) : bool := match h with HHeap _ _ b => Nat.eqb a b | _ => false end.

(** ** Value semantics *)

Definition values := nat -> option tree.
Definition valuesOf (st : state) : values := fun s => match afind s (slots st) with Some h => read st h | None => None end.
Definition upd (v : values) (s : nat) (x : option tree) : values := fun k => if Nat.eqb k s then x else v k.
Definition same (v v' : values) : Prop := forall k, v k = v' k.

Section S.
  Variable small : nat -> bool.
  Variable teq : tree -> tree -> bool.
  Variable cacheTy : nat -> nat.

  (** The operation on values: every slot other than the named ones keeps its value. A cached construction may
      reuse a function that is equal to the one asked for. *)
  Definition valueStep (o : op) (v v' : values) : Prop :=
    match o with
    | Null s | AssignNull s => same v' (upd v s (Some TNull))
    | Make s ty d kids =>
        exists ts, map v kids = map Some ts /\ same v' (upd v s (Some (if small ty then TSmall ty d else TNode ty d ts)))
    | MakeCached s ty d kids c _ =>
        if small ty then same v' (upd v s (Some (TSmall ty d)))
        else exists ts t, map v kids = map Some ts /\ (t = TNode ty d ts \/ teq (TNode ty d ts) t = true) /\ same v' (upd v s (Some t))
    | Copy s f | FromRef s f | Assign s f => same v' (upd v s (v f))
    | Move s f | MoveAssign s f => same v' (upd (upd v f (Some TNull)) s (v f))
    | Swap s t => same v' (upd (upd v s (v t)) t (v s))
    | Destroy s => same v' (upd v s None)
    end.

  (** The obligations of the client: life times of the slots, small classes have no EdgeFunction members, no EdgeFunctionRef of the null
      function, the class of the cache. *)
  Definition live (s : nat) (st : state) : Prop := afind s (slots st) <> None.
  Definition dead (s : nat) (st : state) : Prop := afind s (slots st) = None.
  Definition clientOk (o : op) (st : state) : Prop :=
    match o with
    | Null s => dead s st
    | Make s ty _ kids => dead s st /\ (small ty = true -> kids = []) /\ (forall k, In k kids -> live k st)
    | MakeCached s ty _ kids c _ => dead s st /\ cacheTy c = ty /\ (small ty = true -> kids = []) /\ (forall k, In k kids -> live k st)
    | Copy s f | Move s f => dead s st /\ live f st
    | FromRef s f => dead s st /\ live f st /\ afind f (slots st) <> Some HNull
    | Assign s f | MoveAssign s f | Swap s f => live s st /\ live f st
    | AssignNull s | Destroy s => live s st
    end.
End S.
