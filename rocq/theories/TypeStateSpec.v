(** Finite automata, independently of edge functions. *)
From Coq Require Import String.
From Coq Require Import Bool List Arith.
From Verif Require Import TypeStateModel.
Import ListNotations.

(** feed a sequence of events to the automaton *)
Fixpoint run (d : tsd) (w : list (string * nat)) (s : nat) : option nat :=
  match w with
  | [] => Some s
  | (tok, cs) :: r => match next d tok cs s with Some s' => run d r s' | None => None end
  end.
(** the flat lattice: top, the states, bottom *)
Definition le (d : tsd) (x y : nat) : Prop := x = y \/ x = top d \/ y = bot d.

(** Every look-up finds an entry, and the entry is a state *)
Definition table_ok (d : tsd) : Prop :=
  In (top d) (states d) /\ In (bot d) (states d) /\ In (uninit d) (states d) /\ uninit d <> top d /\ bot d <> top d /\
  forall tok cs s, In s (states d) -> s <> top d ->
    exists s', next d tok cs s = Some s' /\ In s' (states d) /\ s' <> top d.

(** constants are states *)
Fixpoint wf (d : tsd) (f : tsef) : Prop :=
  match f with Const v => In v (states d) | Comp a b => wf d a /\ wf d b | _ => True end.
(** no AllTop / no AllBottom inside *)
Fixpoint noTop (f : tsef) : Prop := match f with AllTop => False | Comp a b => noTop a /\ noTop b | _ => True end.
Fixpoint noBot (f : tsef) : Prop := match f with AllBottom => False | Comp a b => noBot a /\ noBot b | _ => True end.

(** the edge function the solver builds along a path of calls *)
Fixpoint seqEF (d : tsd) (acc : tsef) (w : list (string * nat)) : option tsef :=
  match w with
  | [] => Some acc
  | (t, c) :: r => match compose d acc (TS t c) with Some h => seqEF d h r | None => None end
  end.
(** an object nothing is known about is uninitialised *)
Definition norm (d : tsd) (x : nat) : nat := if x =? top d then uninit d else x.
(** the events in P do not leave the error state *)
Definition errorSticks (d : tsd) (P : string -> bool) : Prop :=
  forall tok cs, P tok = true -> next d tok cs (err d) = Some (err d).

(** ** usage protocols, written down without reference to the tables *)
Definition isAPI (d : tsd) (e : string * nat) : Prop := (isFactory d (fst e) || isConsuming d (fst e))%bool = true.
Open Scope string_scope.
(** a file is used and closed only while it is open *)
Fixpoint fileLegal (open : bool) (w : list (string * nat)) : Prop :=
  match w with
  | [] => True
  | (t, _) :: r =>
      if (String.eqb t "fopen" || String.eqb t "fdopen")%bool then fileLegal true r
      else open = true /\ fileLegal (negb (String.eqb t "fclose")) r
  end.
(** a key derivation function is fetched and freed in turn *)
Fixpoint kdfLegal (have : bool) (w : list (string * nat)) : Prop :=
  match w with
  | [] => True
  | (t, _) :: r => if String.eqb t "EVP_KDF_fetch" then have = false /\ kdfLegal true r else have = true /\ kdfLegal false r
  end.
(** a context is made from a fetched function, gets parameters before deriving,
    and is not used after it was freed *)
Fixpoint ctxLegal (fetched : nat -> bool) (have params : bool) (w : list (string * nat)) : Prop :=
  match w with
  | [] => True
  | (t, c) :: r =>
      if String.eqb t "EVP_KDF_CTX_new" then fetched c = true /\ ctxLegal fetched true false r
      else if String.eqb t "EVP_KDF_CTX_set_params" then have = true /\ ctxLegal fetched have true r
      else if String.eqb t "EVP_KDF_derive" then have = true /\ params = true /\ ctxLegal fetched have params r
      else have = true /\ ctxLegal fetched false false r
  end.
(** only zeroed memory is freed, freed memory is not cleansed; [unknown]: memory
    from elsewhere, which must not be freed and stays unknown when cleansed *)
Inductive memSt := unknown | dirty | zero | freed.
Fixpoint memLegal (m : memSt) (w : list (string * nat)) : Prop :=
  match w with
  | [] => True
  | (t, _) :: r =>
      if String.eqb t "CRYPTO_malloc" then memLegal dirty r
      else if String.eqb t "CRYPTO_zalloc" then memLegal zero r
      else if String.eqb t "CRYPTO_free" then m = zero /\ memLegal freed r
      else m <> freed /\ memLegal (match m with unknown => unknown | _ => zero end) r
  end.
