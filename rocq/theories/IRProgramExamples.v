(** Programs for the examples of the analyses on IRProgramModel.v. *)
From Coq Require Import List Bool ZArith Arith Lia.
From Verif Require Import Assoc IRProgramModel IRProgramSpec.
Import ListNotations.

Inductive nd := I0 | I1 | I2 | I3 | I4 | I5 | I6 | I7 | I8 | I9 | I10 | I11 | I12 | I13 | I14 | I15.
Inductive fd := Main | Fun | Ext | Src | Snk.
#[global] Instance EqDec_nd : EqDec nd. Proof. intros x y. change ({x = y} + {x <> y}). decide equality. Defined.
#[global] Instance EqDec_fd : EqDec fd. Proof. intros x y. change ({x = y} + {x <> y}). decide equality. Defined.
Definition allNd := [I0; I1; I2; I3; I4; I5; I6; I7; I8; I9; I10; I11; I12; I13; I14; I15].
Definition fnNd (n : nd) : fd := match n with I12 | I13 | I14 | I15 => Fun | _ => Main end.

(** main starts at I0, Fun at I12; the others are declared *)
Definition program (cd : nd -> instr nd fd) (sc : nd -> list nd) (lt : nd -> nd -> bool) (np : fd -> nat) (ptr : value nd fd -> bool) : prog nd fd :=
  mkProg cd sc fnNd (fun f => match f with Main => Some I0 | Fun => Some I12 | _ => None end)
    np (fun _ => false) (fun _ => false) (fun _ => []) ptr
    lt allNd.
Definition straightSuccs (n : nd) : list nd :=
  match n with I0 => [I1] | I1 => [I2] | I2 => [I3] | I3 => [I4] | I4 => [I5] | I5 => [I6] | I6 => [I7] | I7 => [I8] | I8 => [I9]
  | I9 => [I10] | I10 => [I11] | I11 => [] | I12 => [I13] | I13 => [I14] | I14 => [I15] | I15 => [] end.
(** every function is one basic block *)
Fixpoint behind (n : nd) (l : list nd) : list nd := match l with [] => [] | x :: l' => if eq_dec n x then l' else behind n l' end.
Definition straightLater (n m : nd) : bool := eqb (fnNd n) (fnNd m) && existsb (eqb m) (behind n allNd).
Definition straight cd np ptr := program cd straightSuccs straightLater np ptr.

Lemma program_wf cd sc lt np ptr :
  (forall n n', In n' (sc n) -> n' <> I0 /\ n' <> I12 /\ fnNd n = fnNd n') ->
  forallb (fun n => negb (existsb isZero (operands (program cd sc lt np ptr) n))) allNd = true ->
  prog_wf (program cd sc lt np ptr).
Proof.
  intros H Z. split; cbn.
  - intros []; cbn; auto 20.
  - intros n n' I'. symmetry. apply (H n n' I').
  - intros [] sp [= <-]; reflexivity.
  - intros n n' [] I' [= <-]; destruct (H _ _ I') as (A & B & _); congruence.
  - intros n Hn. rewrite forallb_forall in Z. assert (X : In n allNd) by (destruct n; cbn; auto 20). apply Z in X.
    apply negb_true_iff in X. assert (Y : existsb isZero (operands (program cd sc lt np ptr) n) = true); [|congruence].
    apply existsb_exists. exists VZero. auto.
Qed.
Ltac wf := apply program_wf; [intros [] n'; cbn; intuition (subst; auto; discriminate)|reflexivity].

Definition noE : @env nd fd := fun _ => None.
Definition zeroM : mem := fun _ => (PInt 0, false).
(** the registers a call of f starts with *)
Definition callE (f : fd) (cs : list cval) : @env nd fd :=
  fun x => match x with VArg g i => if eq_dec f g then nth_error cs i else None | _ => None end.

Ltac start H p a b c ext :=
  assert (H : exec p a b c ext Main (fun _ => false) (I0, noE, [], zeroM, 0))
    by (apply ex_start; [reflexivity|discriminate|intros g; exists 0%Z; reflexivity]).
Ltac go H s := eapply ex_step in H; [|s; try reflexivity; try (cbn; auto; fail); try (repeat constructor; fail)].
Ltac alloca H p n n' := go H ltac:(eapply (st_alloca p _ _ _ _ n n') with (u := 0%Z)).
Ltac store H p n n' := go H ltac:(eapply (st_store p _ _ _ _ n n')).
Ltac load H p n n' := go H ltac:(eapply (st_load p _ _ _ _ n n')).
Ltac compute_ H p n n' tac := eapply ex_step in H; [|eapply (st_compute p _ _ _ _ n n'); [tac; repeat constructor|cbn; auto]].
Ltac op H p n n' z := eapply ex_step in H; [|eapply (st_compute p _ _ _ _ n n');
  [eapply cp_op; [repeat constructor|left; exists z; reflexivity]|cbn; auto]].
Ltac call H pr nn g vs := eapply ex_step in H; [|eapply (st_call pr _ _ _ _ nn) with (f := g) (E' := callE g vs) (cs := vs);
  [reflexivity|cbn; auto|reflexivity|reflexivity|repeat constructor|reflexivity]].
Ltac ret H p n n' := go H ltac:(eapply (st_ret p _ _ _ _ n n')).
