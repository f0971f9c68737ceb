(** Model of the memory management of psr::EdgeFunction (include/phasar/DataFlow/IfdsIde/EdgeFunction.h, "EF.h") with
    EdgeFunctionSingletonCache / DefaultEdgeFunctionSingletonCache (the headers of these names, "Cache.h").

    Concrete edge-function classes are numbers [T]; [small] is IsSOOCandidate (EF.h:80-83). An object of a class is its
    data, a number, and the EdgeFunctions it holds (First and Second of a composer, OtherEF of a join function).
    The heap maps addresses, never reused, to objects with their reference count. The EdgeFunctions of the client are slots.
    One thread; allocation never fails; hash values agree with operator==, so DenseMap finds an equal key if there is one,
    here: the first equal one. [None] is undefined behaviour, a failed assertion or a client error (a slot outside its life
    time, members of a small class). *)
From Coq Require Import List Bool Arith NArith.
From Verif Require Import Assoc.
Import ListNotations.

(** An EdgeFunction: null, a small object in the pointer itself (its bytes and the bytes behind them), or a pointer to a reference
    counted object; the class stands for the pointer to the virtual function table, [cached] for CustomHeapAllocated. *)
Inductive handle := HNull | HSmall (ty : nat) (data pad : N) | HHeap (ty : nat) (cached : bool) (a : nat).

(** RefCounted / CachedRefCounted, EF.h:88-95 *)
Record obj := mkObj { oTy : nat; oData : N; oKids : list handle; oRc : nat; oCache : option nat }.

Record state := mkState {
  heap : list (nat * obj);
  caches : list (nat * list nat);   (* the entries of each cache, the addresses *)
  slots : list (nat * handle);
  fresh : nat }.
Definition init : state := mkState [] [] [] 0.

(** The value of an edge function, as its operators see it: they read the objects it consists of. *)
Inductive tree := TNull | TSmall (ty : nat) (data : N) | TNode (ty : nat) (data : N) (kids : list tree).

Fixpoint mapM {A B} (f : A -> option B) (l : list A) : option (list B) :=
  match l with
  | [] => Some []
  | x :: r => match f x, mapM f r with Some y, Some r' => Some (y :: r') | _, _ => None end
  end.

Fixpoint readH (k : nat) (hp : list (nat * obj)) (h : handle) : option tree :=
  match h with
  | HNull => Some TNull
  | HSmall ty d _ => Some (TSmall ty d)
  | HHeap _ _ a =>
      match k with
      | O => None
      | S k => match afind a hp with
               | Some o => match mapM (readH k hp) (oKids o) with Some ts => Some (TNode (oTy o) (oData o) ts) | None => None end
               | None => None
               end
      end
  end.
Definition depthBound (st : state) : nat := S (fresh st).
Definition read (st : state) (h : handle) : option tree := readH (depthBound st) (heap st) h.

Section M.
  Variable small : nat -> bool.
  (** operator== of the classes, on the values *)
  Variable teq : tree -> tree -> bool.
  (** whether ByConstRef passes objects of the class by value (ByRef.h:20-27), so that the cache sees a copy *)
  Variable byValue : nat -> bool.
  (** the class a cache is for, the template argument of EdgeFunctionSingletonCache *)
  Variable cacheTy : nat -> nat.

  (** the constructor EF.h:758-769: increments the count *)
  Definition incr (h : handle) (hp : list (nat * obj)) : option (list (nat * obj)) :=
    match h with
    | HHeap _ _ a => match afind a hp with
                     | Some o => Some (aset a (mkObj (oTy o) (oData o) (oKids o) (S (oRc o)) (oCache o)) hp)
                     | None => None
                     end
    | _ => Some hp
    end.
  Fixpoint incrAll (hs : list handle) (hp : list (nat * obj)) : option (list (nat * obj)) :=
    match hs with [] => Some hp | h :: r => match incr h hp with Some hp' => incrAll r hp' | None => None end end.

  (** DSI::isEqual, Cache.h:71-85, on the entry [b] and the key at [a] (an address unless it is a copy) *)
  Definition keyEq (st : state) (a : option nat) (v : tree) (b : nat) : option bool :=
    if eqb a (Some b) then Some true
    else match afind b (heap st) with
         | Some o => match mapM (read st) (oKids o) with
                     | Some ts => Some (teq v (TNode (oTy o) (oData o) ts))
                     | None => None
                     end
         | None => None
         end.
  Fixpoint findKey (st : state) (a : option nat) (v : tree) (l : list nat) : option (option nat) :=
    match l with
    | [] => Some None
    | b :: r => match keyEq st a v b with
                | Some true => Some (Some b)
                | Some false => findKey st a v r
                | None => None
                end
    end.

  (** VTable::destroy for a cached object, EF.h:722-733: Cache->erase(Value) *)
  Definition cacheErase (st : state) (a : nat) (o : obj) : option state :=
    match oCache o with
    | None => None
    | Some c =>
        let l := afindd [] c (caches st) in
        match mapM (read st) (oKids o) with
        | None => None
        | Some ts =>
            match findKey st (if byValue (oTy o) then None else Some a) (TNode (oTy o) (oData o) ts) l with
            | Some (Some b) => Some (mkState (heap st) (aset c (remove Nat.eq_dec b l) (caches st)) (slots st) (fresh st))
            | Some None => Some st
            | None => None
            end
        end
    end.

  (** Destructors EF.h:202-213 of the EdgeFunctions [todo]; the destructor of a deleted object runs those of its
      members, which are put on top of the stack. [n] bounds the number of destructors. *)
  Fixpoint releaseAll (n : nat) (todo : list handle) (st : state) : option state :=
    match todo with
    | [] => Some st
    | h :: todo =>
        match n with
        | O => None
        | S n =>
            match h with
            | HHeap _ cached a =>
                match afind a (heap st) with
                | None => None
                | Some o =>
                    match oRc o with
                    | O => None
                    | S O =>
                        let rc0 := mkState (aset a (mkObj (oTy o) (oData o) (oKids o) 0 (oCache o)) (heap st)) (caches st) (slots st) (fresh st) in
                        match (if cached then cacheErase rc0 a o else Some rc0) with
                        | Some st1 => releaseAll n (oKids o ++ todo) (mkState (adel a (heap st1)) (caches st1) (slots st1) (fresh st1))
                        | None => None
                        end
                    | S k => releaseAll n todo (mkState (aset a (mkObj (oTy o) (oData o) (oKids o) k (oCache o)) (heap st)) (caches st) (slots st) (fresh st))
                    end
                end
            | _ => releaseAll n todo st
            end
        end
    end.
  Definition handlesIn (st : state) : nat := fold_left (fun n e => n + length (oKids (snd e))) (heap st) 0.
  Definition release (hs : list handle) (st : state) : option state := releaseAll (length hs + handlesIn st) hs st.

  Definition setSlot (s : nat) (h : handle) (st : state) : state := mkState (heap st) (caches st) (aset s h (slots st)) (fresh st).

  (** copies of the EdgeFunctions in the slots [ss]: the members of a new object *)
  Definition slotHandles (ss : list nat) (st : state) : option (list handle) := mapM (fun s => afind s (slots st)) ss.
  Definition copySlots (ss : list nat) (st : state) : option (list handle * state) :=
    match slotHandles ss st with
    | Some hs => match incrAll hs (heap st) with
                 | Some hp => Some (hs, mkState hp (caches st) (slots st) (fresh st))
                 | None => None
                 end
    | None => None
    end.
  (** new RefCounted{...} and the first reference to it *)
  Definition alloc (ty : nat) (data : N) (kids : list handle) (c : option nat) (st : state) : handle * state :=
    let a := fresh st in
    (HHeap ty (match c with Some _ => true | None => false end) a,
     mkState (aset a (mkObj ty data kids 1 c) (heap st)) (caches st) (slots st) (S a)).

  Inductive op :=
  | Null (s : nat)                                                     (* EF.h:163-165 *)
  | Make (s ty : nat) (data : N) (kids : list nat)                     (* 235-276 *)
  | MakeCached (s ty : nat) (data : N) (kids : list nat) (c : nat) (garbage : N)  (* 278-316 *)
  | Copy (s from : nat)                                                (* 167-168 *)
  | FromRef (s from : nat)                                             (* 215-233, with the EdgeFunctionRef of 684-697 *)
  | Move (s from : nat)                                                (* 171-174 *)
  | Assign (s from : nat)                                              (* 189-192 from an lvalue *)
  | MoveAssign (s from : nat)                                          (* 189-192 from an rvalue *)
  | AssignNull (s : nat)                                               (* 196-199 *)
  | Swap (s t : nat)                                                   (* 177-186 *)
  | Destroy (s : nat).

  Definition free (s : nat) (st : state) : bool := match afind s (slots st) with None => true | Some _ => false end.

  (** [*this] is destroyed and [h], already counted, becomes its content *)
  Definition overwrite (s : nat) (h : handle) (st : state) : option state :=
    match afind s (slots st) with
    | Some old => release [old] (setSlot s h st)
    | None => None
    end.

  Definition step (o : op) (st : state) : option state :=
    match o with
    | Null s => if free s st then Some (setSlot s HNull st) else None
    | Make s ty data kids =>
        if negb (free s st) then None else
        if small ty then (match kids with [] => Some (setSlot s (HSmall ty data 0) st) | _ => None end) else
        match copySlots kids st with
        | Some (hs, st1) => let (h, st2) := alloc ty data hs None st1 in Some (setSlot s h st2)
        | None => None
        end
    | MakeCached s ty data kids c garbage =>
        if negb (free s st) then None else if negb (eqb (cacheTy c) ty) then None else
        if small ty then (match kids with [] => Some (setSlot s (HSmall ty data garbage) st) | _ => None end) else
        match copySlots kids st with
        | None => None
        | Some (hs, st1) =>
            match mapM (read st1) hs with
            | None => None
            | Some ts =>
                let l := afindd [] c (caches st1) in
                match findKey st1 None (TNode ty data ts) l with
                | None => None
                | Some (Some b) =>
                    let h := HHeap ty true b in
                    match incr h (heap st1) with
                    | Some hp => release hs (setSlot s h (mkState hp (caches st1) (slots st1) (fresh st1)))
                    | None => None
                    end
                | Some None =>
                    let (h, st2) := alloc ty data hs (Some c) st1 in
                    Some (setSlot s h (mkState (heap st2) (aset c (l ++ [fresh st1]) (caches st2)) (slots st2) (fresh st2)))
                end
            end
        end
    | Copy s from =>
        match free s st, afind from (slots st) with
        | true, Some h => match incr h (heap st) with Some hp => Some (setSlot s h (mkState hp (caches st) (slots st) (fresh st))) | None => None end
        | _, _ => None
        end
    | FromRef s from =>
        match free s st, afind from (slots st) with
        | true, Some HNull => None
        | true, Some (HSmall ty d p) => Some (setSlot s (HSmall ty d p) st)
        | true, Some (HHeap ty cached a) =>
            let h := HHeap ty cached a in
            match incr h (heap st) with Some hp => Some (setSlot s h (mkState hp (caches st) (slots st) (fresh st))) | None => None end
        | _, _ => None
        end
    | Move s from =>
        match free s st, afind from (slots st) with
        | true, Some h => Some (setSlot s h (setSlot from HNull st))
        | _, _ => None
        end
    | Assign s from =>
        match afind from (slots st) with
        | Some h => match incr h (heap st) with Some hp => overwrite s h (mkState hp (caches st) (slots st) (fresh st)) | None => None end
        | None => None
        end
    | MoveAssign s from =>
        match afind from (slots st) with
        | Some h => overwrite s h (setSlot from HNull st)
        | None => None
        end
    | AssignNull s => overwrite s HNull st
    | Swap s t =>
        match afind s (slots st), afind t (slots st) with
        | Some h, Some h' => Some (setSlot t h (setSlot s h' st))
        | _, _ => None
        end
    | Destroy s =>
        match afind s (slots st) with
        | Some h => release [h] (mkState (heap st) (caches st) (adel s (slots st)) (fresh st))
        | None => None
        end
    end.

  Fixpoint run (os : list op) (st : state) : option state :=
    match os with [] => Some st | o :: r => match step o st with Some st' => run r st' | None => None end end.

  (** ** Observers *)

  (** the class, and the pointer as it is compared: EF.h:408-412 *)
  Definition classOf (h : handle) : option nat := match h with HNull => None | HSmall ty _ _ | HHeap ty _ _ => Some ty end.
  Definition wordOf (h : handle) : N * N * option nat :=
    match h with HNull => (0%N, 0%N, None) | HSmall _ d p => (d, p, None) | HHeap _ _ a => (0%N, 0%N, Some a) end.
  Definition referenceEquals (h h' : handle) : bool := eqb (classOf h) (classOf h') && eqb (wordOf h) (wordOf h').
  (** EF.h:421-431 *)
  Definition equals (st : state) (h h' : handle) : option bool :=
    if negb (eqb (classOf h) (classOf h')) then Some false else
    match h with
    | HNull => Some true
    | _ => if eqb (wordOf h) (wordOf h') then Some true
           else match read st h, read st h' with Some t, Some t' => Some (teq t t') | _, _ => None end
    end.
  (** EF.h:546-554; [num h] is the tuple of the two numbers the pointers are *)
  Definition less (num : handle -> N * N) (st : state) (h h' : handle) : option bool :=
    match equals st h h' with
    | None => None
    | Some true => Some false
    | Some false => let (e, v) := num h in let (e', v') := num h' in Some ((e <? e')%N || ((e =? e')%N && (v <? v')%N))
    end.
  (** EF.h:622-632 *)
  Definition isRefCounted (h : handle) : bool := match h with HHeap _ _ _ => true | _ => false end.
  Definition isCached (h : handle) : bool := match h with HHeap _ c _ => c | _ => false end.
  (** EF.h:649-656 *)
  Definition getCacheOrNull (st : state) (h : handle) : option (option nat) :=
    match h with
    | HNull => None
    | HSmall _ _ _ => Some None
    | HHeap ty false a => Some None
    | HHeap ty true a => match afind a (heap st) with Some o => Some (oCache o) | None => None end
    end.
  (** EF.h:658-666, 734-742; [hashable] classes hash their value, the others the pointer *)
  Definition hashOf (hashable : nat -> bool) (hv : tree -> N) (hw : N * N * option nat -> option nat -> N) (st : state) (h : handle) : option N :=
    match h with
    | HNull => Some 0%N
    | HSmall ty _ _ | HHeap ty _ _ => if hashable ty then option_map hv (read st h) else Some (hw (wordOf h) (Some ty))
    end.
End M.
