(** Model of the generic helpers of include/phasar/Utils/Utilities.h and lib/Utils/Utilities.cpp.
    [None] is undefined behaviour. *)
From Coq Require Import String Ascii List Bool Arith NArith ZArith.
From Verif Require Import Assoc.
Import ListNotations.
Open Scope nat_scope.

(** computePowerSet (Utilities.h:52-84). A std::set is the list of its elements in iteration order; the
    elements of a subset are inserted in that order. [1 << S.size()] has type int:
    for 31 elements it is INT_MIN, which the comparison with a size_t converts to 2^64 - 2^31; for more
    elements the shift is undefined. *)
Section PowerSet.
  Context {A} `{EqDec A}.
  Definition shiftBound (n : nat) : option N :=
    if n <=? 30 then Some (2 ^ N.of_nat n)%N else if n =? 31 then Some (2 ^ 64 - 2 ^ 31)%N else None.
  Definition setInsert (x : list A) (P : list (list A)) : list (list A) := if mem x P then P else P ++ [x].
  (** the loop over J, lines 74-81 *)
  Definition powInner (I : N) (js : list (nat * A)) (sub : list A) (P : list (list A)) : list A * list (list A) :=
    fold_left (fun '(sub, P) '(j, x) =>
      let sub' := if N.testbit I (N.of_nat j) then sub ++ [x] else sub in (sub', setInsert sub' P)) js (sub, P).
  Definition computePowerSet (s : list A) : option (list (list A)) :=
    match shiftBound (length s) with
    | None => None
    | Some b => Some (N.recursion [] (fun I P => snd (powInner I (combine (seq 0 (length s)) s) [] P)) b)
    end.
End PowerSet.

(** remove_by_index, random-access iterators (Utilities.h:199-231); iterators are positions.
    [stdMove m i t o] is std::move([i,t), o) on the sequence [m]. *)
Section RemoveByIndex.
  Context {A : Type}.
  Definition stdMove (m : list A) (i t o : nat) : option (list A * nat) :=
    if (i <=? t) && (t <=? length m) && (o <=? i)
    then Some (firstn o m ++ firstn (t - i) (skipn i m) ++ skipn (o + (t - i)) m, o + (t - i)) else None.
  (** lines 217-229 *)
  Fixpoint removeLoop (bounds prev : nat) (idx : list nat) (m : list A) (i o : nat) : option (list A * nat) :=
    match idx with
    | [] => stdMove m i bounds o
    | cur :: idx' =>
        if prev + 1 =? cur then removeLoop bounds cur idx' m (i + 1) o
        else if bounds <=? cur then stdMove m i bounds o
        else match stdMove m i cur o with
             | Some (m', o') => removeLoop bounds cur idx' m' (cur + 1) o'
             | None => None
             end
    end.
  Definition removeByIndex (m : list A) (idx : list nat) : option (list A * nat) :=
    match idx with
    | [] => Some (m, length m)
    | i :: idx' => match m with [] => Some (m, 0) | _ =>
        if length m <? i + 1 then None else removeLoop (length m) i idx' m (i + 1) i end
    end.
  (** Cont.erase(remove_by_index(Cont, ...), Cont.end()) *)
  Definition eraseByIndex (m : list A) (idx : list nat) : option (list A) :=
    match removeByIndex m idx with Some (m', e) => Some (firstn e m') | None => None end.

  (** forward iterators (lines 232-246); [rest] counts the positions from [i] to the end *)
  Fixpoint forwardLoop (rest cur i first : nat) (idx : list nat) (m : list A) : option (list A * nat) :=
    match rest with
    | 0 => Some (m, first)
    | S rest' =>
        match idx with
        | [] => None
        | k :: idx' =>
            if cur =? k then forwardLoop rest' (cur + 1) (i + 1) first idx m
            else match stdMove m i (i + 1) first with
                 | Some (m', first') =>
                     match idx' with [] => stdMove m' (i + 1) (length m) first'
                                | _ => forwardLoop rest' (cur + 1) (i + 1) first' idx' m' end
                 | None => None
                 end
        end
    end.
  Definition removeByIndexFwd (m : list A) (idx : list nat) : option (list A * nat) :=
    match idx with
    | [] => Some (m, length m)
    | i :: _ => match m with [] => Some (m, 0) | _ =>
        if length m <? i then None else if length m =? i then Some (m, i)
        else forwardLoop (length m - i) i i i idx m end
    end.
  Definition eraseByIndexFwd (m : list A) (idx : list nat) : option (list A) :=
    match removeByIndexFwd m idx with Some (m', e) => Some (firstn e m') | None => None end.
End RemoveByIndex.

(** intersectWith (Utilities.h:94-159): collecting first (containers without
    erase-by-iterator) and erasing while iterating. The collecting version does not compile
    for elements wider than a pointer (line 131, SmallVector::insert with one argument). *)
Section Intersect.
  Context {A} `{EqDec A}.
  Definition setErase (x : A) (d : list A) : list A := filter (fun y => negb (eqb x y)) d.
  Definition intersectCollect (dest src : list A) : list A :=
    let buffer := filter (fun x => negb (mem x src)) dest in fold_left (fun d x => setErase x d) buffer dest.
  Fixpoint intersectErase (dest src : list A) : list A :=
    match dest with
    | [] => []
    | x :: d => if mem x src then x :: intersectErase d src else intersectErase d src
    end.
End Intersect.

(** strtol(s, &end, 10) in the C locale: the value and whether end <> s *)
Open Scope Z_scope.
Definition isSpace (c : ascii) : bool := let n := N_of_ascii c in (((9 <=? n) && (n <=? 13)) || (n =? 32))%N.
Definition digitOf (c : ascii) : option Z :=
  let n := N_of_ascii c in if ((48 <=? n) && (n <=? 57))%N then Some (Z.of_N n - 48) else None.
Fixpoint skipSpace (s : string) : string := match s with String c s' => if isSpace c then skipSpace s' else s | EmptyString => s end.
Fixpoint digitsVal (s : string) (acc : Z) : Z :=
  match s with String c s' => match digitOf c with Some d => digitsVal s' (10 * acc + d) | None => acc end | EmptyString => acc end.
Definition longMax : Z := 2 ^ 63 - 1.
Definition longMin : Z := - 2 ^ 63.
Definition clampLong (z : Z) : Z := Z.max longMin (Z.min longMax z).
Definition startsDigit (s : string) : bool := match s with String c _ => match digitOf c with Some _ => true | None => false end | _ => false end.
Definition strtol (s : string) : Z * bool :=
  let s := skipSpace s in
  let '(neg, s) := match s with
                   | String c s' => if eqb (N_of_ascii c) 45%N then (true, s') else if eqb (N_of_ascii c) 43%N then (false, s') else (false, s)
                   | EmptyString => (false, s) end in
  if startsDigit s then (clampLong (if neg then - digitsVal s 0 else digitsVal s 0), true) else (0, false).

(** StringIDLess::operator() (lib/Utils/Utilities.cpp:98-115); [same]: both arguments are the same object
    (line 105 compares Lhs.c_str() with the end pointer of Rhs) *)
Definition stringIDLess (same : bool) (l r : string) : bool :=
  let '(lv, lp) := strtol l in
  let '(rv, rp) := strtol r in
  if negb lp && (same && negb rp) then String.ltb l r
  else if negb lp && rp then false
  else if lp && negb rp then true
  else lv <? rv.

(** isConstructor (lib/Utils/Utilities.cpp:38-65): find_last finds something iff the text occurs *)
Fixpoint contains (p s : string) : bool :=
  prefix p s || match s with String _ s' => contains p s' | EmptyString => false end.
Definition isConstructor (s : string) : bool := contains "C2E" s || contains "C1E" s || contains "C2E" s.
