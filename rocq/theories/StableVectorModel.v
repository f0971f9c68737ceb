(** Model of /repo/include/phasar/Utils/StableVector.h ("SV.h").

    Memory is a list of allocations; an allocation is freed ([None]) or a list
    of cells, each holding a constructed element or raw memory.  A pointer is
    an allocation and an offset; nullptr is [None].  [None] as a result is
    undefined behaviour, a failed assertion, an element constructed over a live
    one, or memory released with live elements in it or with the wrong size.
    size_t does not overflow.  Allocators and asan poisoning are left out. *)
From Coq Require Import List Bool Arith.
From Verif Require Import Assoc.
Import ListNotations.

(** SV.h:43-44 *)
Definition LogIC : nat := 5.
Definition IC : nat := 2 ^ LogIC.

Definition bind {A B} (o : option A) (f : A -> option B) : option B :=
  match o with Some a => f a | None => None end.
Notation "'do' x <- e ; f" := (bind e (fun x => f)) (at level 200, x pattern, e at level 100, f at level 200).
Definition guard (b : bool) : option unit := if b then Some tt else None.

Fixpoint upd {A} (i : nat) (a : A) (l : list A) : option (list A) :=
  match l, i with
  | [], _ => None
  | _ :: l', 0 => Some (a :: l')
  | x :: l', S i' => option_map (cons x) (upd i' a l')
  end.

Section SV.
  Context {T : Type}.

  Definition heap := list (option (list (option T))).
  Definition ptr : Type := nat * nat.

  Definition cells (b : nat) (h : heap) : option (list (option T)) :=
    match nth_error h b with Some (Some c) => Some c | _ => None end.

  Definition construct (p : ptr) (x : T) (h : heap) : option heap :=
    do c <- cells (fst p) h;
    match nth_error c (snd p) with
    | Some None => do c' <- upd (snd p) (Some x) c; upd (fst p) (Some c') h
    | _ => None
    end.
  Definition destroy (p : ptr) (h : heap) : option heap :=
    do c <- cells (fst p) h;
    match nth_error c (snd p) with
    | Some (Some _) => do c' <- upd (snd p) None c; upd (fst p) (Some c') h
    | _ => None
    end.
  Definition read (p : ptr) (h : heap) : option T :=
    do c <- cells (fst p) h;
    match nth_error c (snd p) with Some (Some x) => Some x | _ => None end.
  (** std::destroy_n *)
  Fixpoint destroy_n (p : ptr) (n : nat) (h : heap) : option heap :=
    match n with
    | 0 => Some h
    | S n' => do h' <- destroy p h; destroy_n (fst p, snd p + 1) n' h'
    end.
  Definition allocate (n : nat) (h : heap) : ptr * heap := ((length h, 0), h ++ [Some (repeat None n)]).
  Definition deallocate (p : ptr) (n : nat) (h : heap) : option heap :=
    do c <- cells (fst p) h;
    do _ <- guard ((length c =? n) && (snd p =? 0) && forallb (fun x => match x with None => true | _ => false end) c);
    upd (fst p) None h.

  (** pointer difference p - q *)
  Definition pdiff (p q : option ptr) : option nat :=
    match p, q with
    | None, None => Some 0
    | Some (b, i), Some (b', j) => if (b =? b') && (j <=? i) then Some (i - j) else None
    | _, _ => None
    end.
  Definition padd (p : ptr) (n : nat) : ptr := (fst p, snd p + n).
  (** std::destroy(first, last) *)
  Definition destroyRange (p q : option ptr) (h : heap) : option heap :=
    do n <- pdiff q p;
    match p with Some p => destroy_n p n h | None => Some h end.

  Record sv := mkSV {
    blocks : list ptr;
    start : option ptr;
    pos : option ptr;
    end_ : option ptr;
    size : nat;
    blockIdx : nat }.

  Definition empty : sv := mkSV [] None None None 0 0.

  Definition isPowerOf2 (n : nat) : bool := negb (n =? 0) && (2 ^ Nat.log2 n =? n).

  (** growAndEmplace, SV.h:469-504 *)
  Definition growAndEmplace (x : T) (v : sv) (h : heap) : option (ptr * sv * heap) :=
    do r <-
      (match blocks v with
       | [] => let (b, h') := allocate IC h in Some ([b], padd b IC, blockIdx v, h')
       | _ =>
           do _ <- guard (isPowerOf2 (size v));
           if blockIdx v <? length (blocks v) - 1 then
             do b <- nth_error (blocks v) (blockIdx v + 1);
             Some (blocks v, padd b (size v), blockIdx v + 1, h)
           else
             let (b, h') := allocate (size v) h in
             Some (blocks v ++ [b], padd b (size v), blockIdx v + 1, h')
       end);
    let '(bs, e, bi, h') := r in
    do ret <- nth_error bs bi;
    do h'' <- construct ret x h';
    Some (ret, mkSV bs (Some ret) (Some (padd ret 1)) (Some e) (size v + 1) bi, h'').

  (** emplace_back, SV.h:262-275 *)
  Definition emplace_back (x : T) (v : sv) (h : heap) : option (ptr * sv * heap) :=
    if eqb (pos v) (end_ v) then growAndEmplace x v h
    else
      do p <- pos v;
      do h' <- construct p x h;
      Some (p, mkSV (blocks v) (start v) (Some (padd p 1)) (end_ v) (size v + 1) (blockIdx v), h').

  (** subscriptHelper, SV.h:506-515; the location *)
  Definition subscript (i : nat) (v : sv) : option ptr :=
    if i <? IC then do b <- nth_error (blocks v) 0; Some (padd b i)
    else
      let log := Nat.log2 i in
      do b <- nth_error (blocks v) (log - (LogIC - 1));
      Some (padd b (i - 2 ^ log)).

  (** front, SV.h:328-336; back, 338-346 *)
  Definition front (v : sv) : option ptr :=
    do _ <- guard (negb (size v =? 0)); nth_error (blocks v) 0.
  Definition back (v : sv) : option ptr :=
    do _ <- guard (negb (size v =? 0));
    do p <- pos v;
    do _ <- guard (0 <? snd p);
    Some (fst p, snd p - 1).

  (** the block before the current one, SV.h:358-368 and 413-421 *)
  Definition previousBlock (v : sv) (checked : bool) : option (ptr * nat) :=
    if blockIdx v - 1 =? 0 then
      do b <- nth_error (blocks v) 0; Some (b, IC)
    else
      do n <- pdiff (end_ v) (start v);
      do _ <- guard (negb checked || (isPowerOf2 n && (n =? size v)));
      do b <- nth_error (blocks v) (blockIdx v - 1);
      Some (b, n / 2).

  (** pop_back, SV.h:348-371 *)
  Definition pop_back (v : sv) (h : heap) : option (sv * heap) :=
    do p <- back v;
    do h' <- destroy p h;
    let v' := mkSV (blocks v) (start v) (Some p) (end_ v) (size v - 1) (blockIdx v) in
    if negb (eqb (Some p) (start v)) then Some (v', h')
    else if blockIdx v =? 0 then Some (v', h')
    else
      do bn <- previousBlock v' true;
      let (b, n) := bn in
      Some (mkSV (blocks v) (Some b) (Some (padd b n)) (Some (padd b n)) (size v - 1) (blockIdx v - 1), h').

  (** clear, SV.h:379-397 *)
  Fixpoint clearBlocks (k i : nat) (cap total : nat) (v : sv) (h : heap) : option heap :=
    match k with
    | 0 => Some h
    | S k' =>
        do b <- nth_error (blocks v) i;
        do h' <- destroy_n b cap h;
        clearBlocks k' (i + 1) total (total + total) v h'
    end.
  Definition clear (v : sv) (h : heap) : option (sv * heap) :=
    do h1 <- clearBlocks (blockIdx v) 0 IC IC v h;
    do h2 <- destroyRange (start v) (pos v) h1;
    match blocks v with
    | [] => Some (mkSV [] (start v) (pos v) (end_ v) 0 0, h2)
    | b :: _ => Some (mkSV (blocks v) (Some b) (Some b) (Some (padd b IC)) 0 0, h2)
    end.

  (** pop_back_n, SV.h:399-429 *)
  Fixpoint popLoop (fuel : nat) (n : nat) (v : sv) (h : heap) : option (sv * heap) :=
    match fuel with
    | 0 => None
    | S f =>
        do cur <- pdiff (pos v) (start v);
        do p <- pos v;
        if n <? cur then
          let p' := (fst p, snd p - n) in
          do h' <- destroy_n p' n h;
          Some (mkSV (blocks v) (start v) (Some p') (end_ v) (size v - n) (blockIdx v), h')
        else
          do h' <- destroyRange (start v) (pos v) h;
          do v' <-
            (if blockIdx v =? 0 then
               do b <- nth_error (blocks v) 0;
               Some (mkSV (blocks v) (Some b) (Some b) (Some (padd b IC)) (size v - cur) 0)
             else
               do bn <- previousBlock v false;
               let (b, m) := bn in
               Some (mkSV (blocks v) (Some b) (Some (padd b m)) (Some (padd b m)) (size v - cur) (blockIdx v - 1)));
          if n - cur =? 0 then Some (v', h') else popLoop f (n - cur) v' h'
    end.
  Definition pop_back_n (n : nat) (v : sv) (h : heap) : option (sv * heap) :=
    do _ <- guard (n <=? size v);
    if n =? 0 then Some (v, h) else popLoop (n + 1) n v h.

  (** shrink_to_fit, SV.h:431-455 *)
  Fixpoint freeBlocks (bs : list ptr) (cap : nat) (h : heap) : option heap :=
    match bs with
    | [] => Some h
    | b :: bs' => do h' <- deallocate b cap h; freeBlocks bs' (cap * 2) h'
    end.
  Definition shrink_to_fit (v : sv) (h : heap) : option (sv * heap) :=
    if (length (blocks v) =? 0) || (blockIdx v =? length (blocks v) - 1) then Some (v, h)
    else
      do h1 <-
        (if size v =? 0 then
           do _ <- guard (blockIdx v =? 0);
           do b <- nth_error (blocks v) 0;
           deallocate b IC h
         else Some h);
      do h2 <- freeBlocks (skipn (blockIdx v + 1) (blocks v)) (2 ^ (blockIdx v + LogIC)) h1;
      Some (mkSV (firstn (blockIdx v + (if size v =? 0 then 0 else 1)) (blocks v))
                 (start v) (pos v) (end_ v) (size v) (blockIdx v), h2).

  (** the destructor, SV.h:228-254 *)
  Fixpoint releaseFull (k i cap total : nat) (v : sv) (h : heap) : option (nat * nat * heap) :=
    match k with
    | 0 => Some (cap, total, h)
    | S k' =>
        do b <- nth_error (blocks v) i;
        do h1 <- destroy_n b cap h;
        do h2 <- deallocate b cap h1;
        releaseFull k' (i + 1) total (total * 2) v h2
    end.
  Fixpoint releaseRest (bs : list ptr) (cap total : nat) (h : heap) : option heap :=
    match bs with
    | [] => Some h
    | b :: bs' => do h' <- deallocate b cap h; releaseRest bs' total (total * 2) h'
    end.
  Definition destructor (v : sv) (h : heap) : option heap :=
    do r <- releaseFull (blockIdx v) 0 IC IC v h;
    let '(cap, total, h1) := r in
    do h2 <- destroyRange (start v) (pos v) h1;
    releaseRest (skipn (blockIdx v) (blocks v)) cap total h2.

  (** the copy constructor, SV.h:167-199 *)
  Fixpoint copy_n (p : ptr) (n : nat) (q : ptr) (h : heap) : option heap :=  (* std::uninitialized_copy_n *)
    match n with
    | 0 => Some h
    | S n' => do x <- read p h; do h' <- construct q x h; copy_n (padd p 1) n' (padd q 1) h'
    end.
  Fixpoint copyFull (k i cap total : nat) (v : sv) (acc : list ptr) (h : heap) : option (list ptr * nat * heap) :=
    match k with
    | 0 => Some (acc, cap, h)
    | S k' =>
        let (q, h1) := allocate cap h in
        do b <- nth_error (blocks v) i;
        do h2 <- copy_n b cap q h1;
        copyFull k' (i + 1) total (total * 2) v (acc ++ [q]) h2
    end.
  Definition copy (v : sv) (h : heap) : option (sv * heap) :=
    if size v =? 0 then Some (mkSV [] None None None (size v) (blockIdx v), h)
    else
      do r <- copyFull (blockIdx v) 0 IC IC v [] h;
      let '(acc, cap, h1) := r in
      let (q, h2) := allocate cap h1 in
      do n <- pdiff (pos v) (start v);
      do s <- start v;
      do h3 <- copy_n s n q h2;
      Some (mkSV (acc ++ [q]) (Some q) (Some (padd q n)) (Some (padd q cap)) (size v) (blockIdx v), h3).

  (** ** Iterators, SV.h:48-152 *)
  Record iter := mkIter {
    it : option ptr;
    itEnd : option ptr;
    outer : nat;
    outerEnd : nat;
    total : nat;
    ipos : option ptr }.
  (** begin, SV.h:288-293, with the constructor 127-141 *)
  Definition begin (v : sv) : option iter :=
    if size v =? 0 then Some (mkIter None None (blockIdx v + 1) (blockIdx v + 1) IC None)
    else
      do b <- nth_error (blocks v) 0;
      Some (mkIter (Some b) (if blockIdx v =? 0 then pos v else Some (padd b IC)) 0 (blockIdx v + 1) IC (pos v)).
  (** operator++, SV.h:57-88 *)
  Definition next (v : sv) (i : iter) : option iter :=
    do p <- it i;
    let p' := padd p 1 in
    if negb (eqb (Some p') (itEnd i)) then Some (mkIter (Some p') (itEnd i) (outer i) (outerEnd i) (total i) (ipos i))
    else if outer i =? outerEnd i - 1 then
      Some (mkIter None (itEnd i) (outer i) (outerEnd i) (total i) (ipos i))
    else
      do b <- nth_error (blocks v) (outer i + 1);
      if outer i + 1 =? outerEnd i - 1 then
        Some (mkIter (Some b) (ipos i) (outer i + 1) (outerEnd i) (total i) (ipos i))
      else
        Some (mkIter (Some b) (Some (padd b (total i))) (outer i + 1) (outerEnd i) (total i * 2) (ipos i)).
  (** a range-based for loop; the end iterator holds nullptr *)
  Fixpoint walk (fuel : nat) (v : sv) (i : iter) (h : heap) : option (list T) :=
    match fuel with
    | 0 => None
    | S f =>
        match it i with
        | None => Some []
        | Some p =>
            do x <- read p h;
            do i' <- next v i;
            do l <- walk f v i' h;
            Some (x :: l)
        end
    end.
  Definition elements (v : sv) (h : heap) : option (list T) :=
    do i <- begin v; walk (size v + 1) v i h.

  (** operator==, SV.h:457-481 *)
  Fixpoint equalRange (teq : T -> T -> bool) (p : ptr) (n : nat) (q : ptr) (h : heap) : option bool :=
    match n with
    | 0 => Some true
    | S n' =>
        do x <- read p h;
        do y <- read q h;
        if teq x y then equalRange teq (padd p 1) n' (padd q 1) h else Some false
    end.
  Fixpoint equalBlocks (teq : T -> T -> bool) (k i cap total : nat) (v w : sv) (h : heap) : option bool :=
    match k with
    | 0 => Some true
    | S k' =>
        do b <- nth_error (blocks v) i;
        do c <- nth_error (blocks w) i;
        do r <- equalRange teq b cap c h;
        if r then equalBlocks teq k' (i + 1) total (total * 2) v w h else Some false
    end.
  Definition equal (teq : T -> T -> bool) (v w : sv) (h : heap) : option bool :=
    if negb (size v =? size w) then Some false
    else if size v =? 0 then Some true
    else
      do r <- equalBlocks teq (blockIdx v) 0 IC IC v w h;
      if r then
        do n <- pdiff (pos v) (start v);
        do s <- start v;
        do s' <- start w;
        equalRange teq s n s' h
      else Some false.

  (** ** Operation sequences on one vector *)
  Inductive op := Emplace (x : T) | Pop | PopN (n : nat) | Clear | Shrink.
  Definition step (o : op) (s : sv * heap) : option (sv * heap) :=
    let (v, h) := s in
    match o with
    | Emplace x => do r <- emplace_back x v h; let '(_, v', h') := r in Some (v', h')
    | Pop => pop_back v h
    | PopN n => pop_back_n n v h
    | Clear => clear v h
    | Shrink => shrink_to_fit v h
    end.
  Fixpoint run (os : list op) (s : sv * heap) : option (sv * heap) :=
    match os with [] => Some s | o :: os' => do s' <- step o s; run os' s' end.

  (** ** Several vectors in one memory *)
  Inductive mop :=
  | New                      (* default constructor *)
  | On (i : nat) (o : op)    (* an operation on vector i *)
  | CopyOf (i : nat)         (* copy constructor *)
  | Delete (i : nat).        (* destructor; the slot is then default-constructed again *)
  Definition mstep (o : mop) (s : list sv * heap) : option (list sv * heap) :=
    let (vs, h) := s in
    match o with
    | New => Some (vs ++ [empty], h)
    | On i o => do v <- nth_error vs i; do r <- step o (v, h); let (v', h') := r in do vs' <- upd i v' vs; Some (vs', h')
    | CopyOf i => do v <- nth_error vs i; do r <- copy v h; let (v', h') := r in Some (vs ++ [v'], h')
    | Delete i => do v <- nth_error vs i; do h' <- destructor v h; do vs' <- upd i empty vs; Some (vs', h')
    end.
  Fixpoint mrun (os : list mop) (s : list sv * heap) : option (list sv * heap) :=
    match os with [] => Some s | o :: os' => do s' <- mstep o s; mrun os' s' end.
End SV.
Arguments mop : clear implicits.
Arguments heap : clear implicits.
Arguments op : clear implicits.
