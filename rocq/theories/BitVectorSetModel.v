(** Model of /repo/include/phasar/Utils/BitVectorSet.h ("BVS.h").

    llvm::BitVector (outside /repo) is a list of bits, index 0 first; its
    unused bits are always zero, so its data words are determined by the bits.
    Position, the static bimap, only grows and gives a new value the index
    Position.size(): it is the list of values in index order.  Indices fit in
    int.  [None] is undefined behaviour (an out-of-range access). *)
From Coq Require Import List Bool Arith NArith.
From Verif Require Import Assoc.
Import ListNotations.

(** ** llvm::BitVector *)
Definition bits := list bool.

Definition bget (i : nat) (b : bits) : bool := nth i b false.

(** resize *)
Definition resize (n : nat) (b : bits) : bits := firstn n b ++ repeat false (n - length b).

(** set(Idx) / reset(Idx) *)
Fixpoint bput (v : bool) (i : nat) (b : bits) : option bits :=
  match b, i with
  | [], _ => None
  | _ :: b', 0 => Some (v :: b')
  | x :: b', S i' => option_map (cons x) (bput v i' b')
  end.

(** operator|=, grows to the larger size *)
Fixpoint bor (a b : bits) : bits :=
  match a, b with
  | [], _ => b
  | _, [] => a
  | x :: a', y :: b' => (x || y) :: bor a' b'
  end.

(** operator&=, keeps the size *)
Fixpoint band (a b : bits) : bits :=
  match a with
  | [] => []
  | x :: a' => match b with [] => false :: band a' [] | y :: b' => (x && y) :: band a' b' end
  end.

(** reset(RHS) *)
Fixpoint bminus (a b : bits) : bits :=
  match a, b with
  | [], _ => []
  | _, [] => a
  | x :: a', y :: b' => (x && negb y) :: bminus a' b'
  end.

(** test(RHS): any bit set that is not set in RHS *)
Fixpoint btest (a b : bits) : bool :=
  match a with
  | [] => false
  | x :: a' => match b with [] => x || btest a' [] | y :: b' => (x && negb y) || btest a' b' end
  end.

Definition bnone (b : bits) : bool := forallb negb b.
Definition bcount (b : bits) : nat := length (filter (fun x => x) b).

(** find_first *)
Fixpoint find_first (b : bits) : option nat :=
  match b with
  | [] => None
  | true :: _ => Some 0
  | false :: b' => option_map S (find_first b')
  end.
(** find_first_in(Begin, End): the first set bit of [Begin, End) *)
Definition find_first_in (lo hi : nat) (b : bits) : option nat :=
  option_map (Nat.add lo) (find_first (firstn (hi - lo) (skipn lo b))).

(** data words of 64 bits; a word is its value *)
Fixpoint wordValue (b : bits) : N :=
  match b with [] => 0 | x :: b' => N.b2n x + 2 * wordValue b' end.
Fixpoint chunks (fuel : nat) (b : bits) : list bits :=
  match fuel, b with
  | _, [] | 0, _ => []
  | S f, _ => firstn 64 b :: chunks f (skipn 64 b)
  end.
Definition getData (b : bits) : list N := map wordValue (chunks (length b) b).

(** ** internal::isLess, BVS.h:26-48 *)
Fixpoint lessDown (n : nat) (l r : bits) : bool :=
  match n with
  | 0 => false
  | S i => if Bool.eqb (bget i l) (bget i r) then lessDown i l r else bget i r
  end.
Definition isLess (l r : bits) : bool :=
  let ln := length l in
  let rn := length r in
  if (rn <? ln) && match find_first_in rn ln l with Some _ => true | None => false end then false
  else if (ln <? rn) && match find_first_in ln rn r with Some _ => true | None => false end then true
  else lessDown (Nat.min ln rn) l r.

(** ** operator==, BVS.h:278-301 *)
Definition bvsEq (l r : bits) : bool :=
  let le := bnone l in
  let re := bnone r in
  if le || re then Bool.eqb le re
  else
    let lw := getData l in
    let rw := getData r in
    if length lw =? length rw then eqb lw rw
    else
      let m := Nat.min (length lw) (length rw) in
      if negb (eqb (firstn m lw) (firstn m rw)) then false
      else forallb (N.eqb 0) (skipn m (if length rw <? length lw then lw else rw)).

(** ** hash_value, BVS.h:312-323.  [range] is llvm::hash_combine_range, the
    empty hash_code{} is 0. *)
Fixpoint dropZeros (w : list N) : list N :=     (* from the end *)
  match w with
  | [] => []
  | x :: w' => match dropZeros w' with
               | [] => if N.eqb x 0 then [] else [x]
               | r => x :: r
               end
  end.
Definition hash_value (range : list N -> N) (b : bits) : N :=
  match b with
  | [] => 0%N
  | _ => range (dropZeros (getData b))
  end.

(** includes, BVS.h:203-205 *)
Definition includes (b other : bits) : bool := negb (btest other b).

Section BVS.
  Context {T : Type} `{EqDec T}.

  (** Position.left.find *)
  Fixpoint posOf (x : T) (p : list T) : option nat :=
    match p with
    | [] => None
    | y :: p' => if eqb x y then Some 0 else option_map S (posOf x p')
    end.

  (** insert, BVS.h:207-224 *)
  Definition insert (x : T) (p : list T) (b : bits) : option (list T * bits) :=
    match posOf x p with
    | Some i =>
        let b := if length b <=? i then resize (i + 1) b else b in
        option_map (pair p) (bput true i b)
    | None =>
        let i := length p in
        let p' := p ++ [x] in
        let b := if length b <=? length p' then resize (length p') b else b in
        option_map (pair p') (bput true i b)
    end.

  (** erase, BVS.h:235-242 *)
  Definition erase (x : T) (p : list T) (b : bits) : option bits :=
    match posOf x p with
    | Some i => if i <? length b then bput false i b else Some b
    | None => Some b
    end.

  (** count, BVS.h:263-271 *)
  Definition count (x : T) (p : list T) (b : bits) : bool :=
    match posOf x p with
    | Some i => if i <? length b then bget i b else false
    | None => false
    end.

  (** setUnion, BVS.h:180-187; setIntersect, 189-198 *)
  Definition setUnion (a b : bits) : bits :=
    if length a <? length b then bor b a else bor a b.
  Definition setIntersect (a b : bits) : bits :=
    if length b <? length a then band b a else band a b.

  (** ** Iteration.  An iterator is the result of Position.right.find: an
      entry (by its index) or the end of the bimap. *)
  Definition rightFind (p : list T) (i : nat) : option nat :=
    if i <? length p then Some i else None.

  (** begin/end, BVS.h:340-376 *)
  Definition begin (p : list T) (b : bits) : option nat :=
    rightFind p (match find_first b with Some i => i | None => length b end).
  Definition end_ (p : list T) (b : bits) : option nat := rightFind p (length b).

  (** operator++, BVS.h:103-119; the outer option is undefined behaviour.
      find_next(Prev) is find_first_in(Prev + 1, Size) and asserts
      Prev + 1 <= Size. *)
  Definition next (p : list T) (b : bits) (it : option nat) : option (option nat) :=
    match it with
    | None => None
    | Some i =>
        if length b <? i + 1 then None
        else match find_first_in (i + 1) (length b) b with
             | None => Some (rightFind p (length b))
             | Some j => match rightFind p j with None => None | Some k => Some (Some k) end
             end
    end.

  (** for (x : Set) body(x); the body may extend Position by using other sets.
      The end iterator is evaluated once.  [None]: undefined behaviour. *)
  Fixpoint loop (fuel : nat) (body : T -> list T -> list T) (p : list T) (b : bits)
      (it stop : option nat) : option (list T) :=
    match fuel with
    | 0 => None
    | S f =>
        if eqb it stop then Some []
        else match it with
             | None => None
             | Some i =>
                 match nth_error p i with
                 | None => None
                 | Some x =>
                     let p' := body x p in
                     match next p' b it with
                     | None => None
                     | Some it' => option_map (cons x) (loop f body p' b it' stop)
                     end
                 end
             end
    end.
  Definition iterate (body : T -> list T -> list T) (p : list T) (b : bits) : option (list T) :=
    loop (length b + 1) body p b (begin p b) (end_ p b).

  (** ** Histories: objects are numbered *)
  Inductive op :=
  | Create (o : nat) (count : nat)       (* BitVectorSet(), BitVectorSet(Count) *)
  | Copy (o a : nat)
  | Insert (o : nat) (x : T)
  | InsertSet (o a : nat)                (* insert(BitVectorSet), setUnionWith *)
  | Erase (o : nat) (x : T)
  | EraseSet (o a : nat)
  | Clear (o : nat)
  | IntersectWith (o a : nat)
  | Union (o a b : nat)
  | Intersect (o a b : nat).

  Record state := mkState { position : list T; objs : list (nat * bits) }.
  Definition init : state := mkState [] [].
  Definition obj (o : nat) (s : state) : bits := afindd [] o (objs s).
  Definition put (o : nat) (b : bits) (s : state) : state := mkState (position s) (aset o b (objs s)).

  Definition step (c : op) (s : state) : option state :=
    match c with
    | Create o n => Some (put o (repeat false n) s)
    | Copy o a => Some (put o (obj a s) s)
    | Insert o x =>
        match insert x (position s) (obj o s) with
        | None => None
        | Some (p, b) => Some (mkState p (aset o b (objs s)))
        end
    | InsertSet o a => Some (put o (bor (obj o s) (obj a s)) s)
    | Erase o x => option_map (fun b => put o b s) (erase x (position s) (obj o s))
    | EraseSet o a =>
        (* BVS.h:244-250 *)
        Some (put o (if o =? a then [] else bminus (obj o s) (obj a s)) s)
    | Clear o => Some (put o [] s)
    | IntersectWith o a => Some (put o (band (obj o s) (obj a s)) s)
    | Union o a b => Some (put o (setUnion (obj a s) (obj b s)) s)
    | Intersect o a b => Some (put o (setIntersect (obj a s) (obj b s)) s)
    end.

  Fixpoint run (cs : list op) (s : state) : option state :=
    match cs with
    | [] => Some s
    | c :: cs' => match step c s with None => None | Some s' => run cs' s' end
    end.
End BVS.
Arguments op : clear implicits.
Arguments state : clear implicits.
