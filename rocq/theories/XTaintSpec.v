(** What sanitizer positions mean, and paths of a control-flow graph. *)
From Coq Require Import List.
From Verif Require Import XTaintModel.
Import ListNotations.

(** The order of precision: nothing known yet, always sanitized, sanitized after
    an instruction, not sanitized, bottom *)
Definition le (x y : ed) : Prop :=
  x = y \/ x = Top \/ y = Bot \/ (x = San /\ exists s, y = With s) \/ (y = With None /\ exists s, x = With s).

(** consecutive blocks are edges *)
Fixpoint path (succs : nat -> list nat) (p : list nat) : Prop :=
  match p with
  | a :: (b :: _) as r => In b (succs a) /\ path succs r
  | _ => True
  end.
(** no block can be reached from itself *)
Definition acyclic (succs : nat -> list nat) : Prop :=
  forall b p, path succs (b :: p ++ [b]) -> False.
(** s comes before p on every path from the entry *)
Definition dominates (succs : nat -> list nat) (entry : nat) (s p : instr) : Prop :=
  (blk s = blk p /\ idx s < idx p) \/
  (blk s <> blk p /\ forall q, path succs (q ++ [blk p]) -> hd_error (q ++ [blk p]) = Some entry -> In (blk s) q).

(** built without the constant functions to Top and San (the analysis never
    creates the latter; for the former see C13) *)
Fixpoint safe (f : xef) : Prop :=
  match f with
  | AllTop | AllSanitized => False
  | Compose a b => safe a /\ safe b
  | _ => True
  end.
