(** Integer operations of LLVM IR, independently of the analysis.

    A value of type iN is its unsigned representation, between 0 and 2^N - 1. *)
From Coq Require Import ZArith Bool.
From Verif Require Import LCAModel.
Local Open Scope Z_scope.

Definition fits (w u : Z) : Prop := 0 <= u < 2 ^ w.
Definition signed (w u : Z) : Z := if u <? 2 ^ (w - 1) then u else u - 2 ^ w.
Definition inRange (w s : Z) : Prop := - 2 ^ (w - 1) <= s < 2 ^ (w - 1).

(** [None]: undefined behaviour or poison; without the nsw/nuw/exact flags *)
Definition llvm (w : Z) (op : opcode) (u v : Z) : option Z :=
  match op with
  | Add => Some ((u + v) mod 2 ^ w)
  | Sub => Some ((u - v) mod 2 ^ w)
  | Mul => Some ((u * v) mod 2 ^ w)
  | UDiv => if v =? 0 then None else Some (u / v)
  | URem => if v =? 0 then None else Some (u mod v)
  | SDiv =>
      if v =? 0 then None
      else if (signed w u =? - 2 ^ (w - 1)) && (signed w v =? -1) then None
      else Some (Z.quot (signed w u) (signed w v) mod 2 ^ w)
  | SRem =>
      if v =? 0 then None
      else if (signed w u =? - 2 ^ (w - 1)) && (signed w v =? -1) then None
      else Some (Z.rem (signed w u) (signed w v) mod 2 ^ w)
  | And => Some (Z.land u v)
  | Or => Some (Z.lor u v)
  | Xor => Some (Z.lxor u v)
  | Shl => if w <=? v then None else Some ((u * 2 ^ v) mod 2 ^ w)
  | LShr => if w <=? v then None else Some (u / 2 ^ v)
  | AShr => if w <=? v then None else Some ((signed w u / 2 ^ v) mod 2 ^ w)
  end.
