(** Model of the value domain of the generalized linear constant analysis:
    /repo/lib/PhasarLLVM/DataFlow/IfdsIde/Problems/IDEGeneralizedLCA/EdgeValue.cpp
    ("EV.cpp") and /repo/include/phasar/PhasarLLVM/DataFlow/IfdsIde/Problems/
    IDEGeneralizedLCA/{EdgeValue,EdgeValueSet}.h. *)
From Coq Require Import ZArith Bool String List.
From Verif Require Import Assoc LCAModel.
Import ListNotations.
Local Open Scope Z_scope.

(** EdgeValue.  An APInt is its width and its unsigned representation.  A double
    is counted in units of 10^-7, [None] is NaN: rounding is not modelled. *)
Inductive ev := ETop | EInt (w u : Z) | EFp (d : option Z) | EStr (s : string).
#[global] Instance EqDec_ev : EqDec ev.
Proof. unfold EqDec. decide equality; try apply Z.eq_dec; [decide equality; apply Z.eq_dec|apply string_dec]. Defined.

Definition toSigned (w u : Z) : Z := if u <? 2 ^ (w - 1) then u else u - 2 ^ w.   (* getSExtValue *)

(** [None]: an APInt assertion fails (different widths, division by zero) *)
Definition intOp (op : opcode) (w u w' v : Z) : option ev :=
  let wrap z := Some (EInt w (z mod 2 ^ w)) in
  let guard (b : bool) (x : option ev) := if b && (w =? w') then x else None in
  match op with
  | Add => guard true (wrap (u + v))                                               (* EV.cpp:243 *)
  | Sub => guard true (wrap (u - u))                                               (* EV.cpp:262-269: Lhs - Lhs *)
  | Mul => guard true (wrap (u * v))
  | SDiv => guard (negb (v =? 0)) (wrap (Z.quot (toSigned w u) (toSigned w' v)))   (* APInt::sdiv *)
  | SRem => guard (negb (v =? 0)) (wrap (Z.rem (toSigned w u) (toSigned w' v)))
  | UDiv => guard (negb (v =? 0)) (Some (EInt w (u / v)))
  | URem => guard (negb (v =? 0)) (Some (EInt w (u mod v)))
  | And => guard true (Some (EInt w (Z.land u v)))
  | Or => guard true (Some (EInt w (Z.lor u v)))
  | Xor => guard true (Some (EInt w (Z.lxor u v)))
  | Shl => if w <=? v then Some (EInt w 0) else wrap (u * 2 ^ v)                   (* getLimitedValue(BitWidth) *)
  | LShr => if w <=? v then Some (EInt w 0) else Some (EInt w (u / 2 ^ v))
  | AShr => wrap (toSigned w u / 2 ^ (Z.min v w))
  end.
(** LLVM's integer opcodes and the floating-point ones *)
Inductive gop := IOp (o : opcode) | FAdd | FSub | FMul | FDiv | FRem.
(** the C++ operator the opcode is mapped to, EV.cpp:508-575 *)
Definition cxx (o : gop) : opcode :=
  match o with IOp i => i | FAdd => Add | FSub => Sub | FMul => Mul | FDiv => SDiv | FRem => SRem end.
Section Fp.
  (** APFloat arithmetic *)
  Variable fop : opcode -> option Z -> option Z -> option Z.
  Definition performBinOp (o : gop) (a b : ev) : option ev :=
    match a, b with
    | EInt w u, EInt w' v => intOp (cxx o) w u w' v
    | EFp x, EFp y => match cxx o with Add | Sub | Mul | SDiv | SRem => Some (EFp (fop (cxx o) x y)) | _ => Some ETop end
    | EStr x, EStr y => match cxx o with Add => Some (EStr (x ++ y)) | _ => Some ETop end
    | _, _ => Some ETop
    end.
End Fp.

(** typecast to an integer type, EV.cpp:468-484; [1 << Bits] is an int shift;
    APInt & uint64_t keeps the width.  Rounding a double is a parameter. *)
Definition typecastInt (fpToInt : Z -> option Z -> Z) (bits : Z) (a : ev) : option ev :=
  match a with
  | EInt w u => if w <=? bits then Some a else if bits <? 31 then Some (EInt w (Z.land u (2 ^ bits - 1))) else None
  | EFp d => Some (EInt bits (fpToInt bits d mod 2 ^ bits))
  | _ => Some ETop
  end.

(** operator==, EV.cpp:208-236, with Epsilon = 0.000001 = 10 units.  APInts of
    different widths (an assertion failure) count as different. *)
Definition evEqb (a b : ev) : bool :=
  match a, b with
  | ETop, ETop => true
  | EInt w u, EInt w' v => (w =? w') && (u =? v)
  | EFp (Some x), EFp (Some y) => Z.abs (x - y) <? 10
  | EStr x, EStr y => String.eqb x y
  | _, _ => false
  end.
(** std::round, half away from zero; 1 = 10^7 units *)
Definition roundFp (x : Z) : Z := Z.sgn x * ((Z.abs x + 5000000) / 10000000).
(** whether std::hash differs, EdgeValue.h:128-149.  Collisions of std::hash
    itself are not modelled: they do not matter, elements of a bucket are compared
    by the full hash and ==. *)
Definition hashEqb (a b : ev) : bool :=
  match a, b with
  | ETop, ETop => true
  | EInt w u, EInt w' v => toSigned w u =? toSigned w' v
  | EFp (Some x), EFp (Some y) => roundFp x =? roundFp y
  | EFp None, EFp None => true
  | EStr x, EStr y => String.eqb x y
  | _, _ => false
  end.
Definition same (a b : ev) : bool := hashEqb a b && evEqb a b.

(** std::unordered_set: a list without two [same] elements; the order is the
    iteration order, which the theorems do not depend on. *)
Section Sets.
  Context {A : Type}.
  Variables (same : A -> A -> bool) (isTop : A -> bool) (top : A).
  Definition scount (x : A) (s : list A) : bool := existsb (same x) s.
  Definition sinsert (s : list A) (x : A) : list A := if scount x s then s else s ++ [x].
  (** unordered_set::operator== *)
  Definition setEqb (a b : list A) : bool := Nat.eqb (length a) (length b) && forallb (fun x => scount x b) a.
  (** EV.cpp:650 *)
  Definition isTopValue (s : list A) : bool := match s with [x] => isTop x | _ => false end.

  (** the loop of join, EV.cpp:638-644 *)
  Fixpoint insertAll (M : nat) (s : list A) (xs : list A) : list A :=
    match xs with
    | [] => s
    | x :: xs' => let s' := sinsert s x in if Nat.ltb M (length s') then [top] else insertAll M s' xs'
    end.
  (** join, EV.cpp:630-648 *)
  Definition join (M : nat) (a b : list A) : list A :=
    if isTopValue a || isTopValue b then [top] else insertAll M a b.

  (** operator<, EV.cpp:665-675 *)
  Definition evLess (a b : list A) : bool :=
    if Nat.leb (length b) (length a)
    then negb (setEqb a b) && (match a with [] => true | _ => false end || setEqb b [top])
    else forallb (fun x => scount x b) a.
  (** compare, EV.cpp:616-628 *)
  Inductive ordering := Less | Greater | Equal | Incomparable.
  Definition compare (a b : list A) : ordering :=
    let small := if Nat.leb (length a) (length b) then a else b in
    let large := if Nat.ltb (length b) (length a) then a else b in
    if forallb (fun x => scount x large) small
    then if Nat.eqb (length a) (length b) then Equal else if Nat.leb (length a) (length b) then Less else Greater
    else Incomparable.

  (** performBinOp on sets, EV.cpp:577-598, and performTypecast, EV.cpp:600-614;
      [None]: undefined behaviour of an element operation *)
  Variable f : A -> A -> option A.
  Fixpoint binRow (M : nat) (s : list A) (x : A) (ys : list A) : option (list A * bool) :=   (* true: returned *)
    match ys with
    | [] => Some (s, false)
    | y :: ys' =>
        match f x y with
        | None => None
        | Some r => let s' := sinsert s r in if Nat.ltb M (length s') then Some ([top], true) else binRow M s' x ys'
        end
    end.
  Fixpoint binRows (M : nat) (s xs ys : list A) : option (list A) :=
    match xs with
    | [] => Some s
    | x :: xs' =>
        match binRow M s x ys with
        | None => None
        | Some (s', true) => Some s'
        | Some (s', false) => binRows M s' xs' ys
        end
    end.
  Definition binSet (M : nat) (a b : list A) : option (list A) :=
    match a, b with
    | [], _ | _, [] => Some [top]
    | _, _ => if isTopValue a || isTopValue b then Some [top] else binRows M [] a b
    end.
  Variable g : A -> option A.
  Fixpoint castAll (s xs : list A) : option (list A) :=
    match xs with
    | [] => Some s
    | x :: xs' => match g x with None => None | Some r => if isTop r then Some [top] else castAll (sinsert s r) xs' end
    end.
  Definition castSet (a : list A) : option (list A) :=
    match a with [] => Some [top] | _ => if isTopValue a then Some [top] else castAll [] a end.
End Sets.
Definition isTopEv (e : ev) : bool := match e with ETop => true | _ => false end.
