(** Proofs about CallStringModel. *)
From Coq Require Import List Bool NArith Lia Arith.
From Verif Require Import Assoc CallStringModel CallStringSpec.
Import ListNotations.

Section P.
  Context {Nd : Type} (zero : Nd).

  Lemma limit_ok K : (1 <= K < 2 ^ 32)%N -> limitMinus1 K = (K - 1)%N.
  Proof.
    intros HK. unfold limitMinus1. replace (K + 2 ^ 32 - 1)%N with ((K - 1) + 1 * 2 ^ 32)%N by lia.
    rewrite N.mod_add by lia. apply N.mod_small. lia.
  Qed.

  Lemma firstn_tl {A} n (l : list A) : firstn (n - 1) (tl l) = tl (firstn n l).
  Proof.
    destruct n as [|n]; [reflexivity|]. destruct l as [|x l]; [now rewrite firstn_nil|]. cbn. now rewrite Nat.sub_0_r.
  Qed.
  Lemma rev_tl {A} (l : list A) : rev (tl l) = removelast (rev l).
  Proof. destruct l as [|x l]; [reflexivity|]. cbn. now rewrite removelast_last. Qed.
  Lemma tl_rev {A} (l : list A) n : n = length l -> tl (rev l) = rev (firstn (n - 1) l).
  Proof.
    intros ->. induction l as [|x l _] using rev_ind; [reflexivity|].
    rewrite rev_app_distr. cbn. rewrite app_length. cbn. replace (length l + 1 - 1) with (length l) by lia.
    now rewrite firstn_app, Nat.sub_diag, firstn_all, app_nil_r.
  Qed.

  Lemma snd_pop (c : list Nd) : snd (pop_back zero c) = removelast c.
  Proof. destruct c; reflexivity. Qed.

  Lemma run_ok K : (1 <= K < 2 ^ 32)%N -> forall os s n, n <= N.to_nat K -> n <= length s ->
    run zero K os (rev (firstn n s)) = rev (firstn (known (N.to_nat K) os n) (stack os s)) /\
    known (N.to_nat K) os n <= N.to_nat K /\ known (N.to_nat K) os n <= length (stack os s).
  Proof.
    intros HK. induction os as [|[x|] os IH]; intros s n Hk Hn; cbn [run known stack step].
    - auto.
    - destruct (IH (x :: s) (Nat.min (N.to_nat K) (n + 1))) as (E & A); [lia|cbn; lia|]. rewrite <- E. split; auto. f_equal. unfold push_back, size. rewrite limit_ok by auto.
      rewrite rev_length, firstn_length_le by auto.
      destruct (N.ltb_spec (K - 1) (N.of_nat n)).
      + rewrite (tl_rev _ n) by (now rewrite firstn_length_le). rewrite firstn_firstn.
        replace (Nat.min (N.to_nat K) (n + 1)) with n by lia. destruct n as [|n]; [lia|].
        replace (Nat.min (S n - 1) (S n)) with n by lia. reflexivity.
      + replace (Nat.min (N.to_nat K) (n + 1)) with (S n) by lia. reflexivity.
    - destruct (IH (tl s) (n - 1)) as (E & A); [lia|destruct s; cbn in *; lia|]. rewrite <- E. split; auto. f_equal.
      rewrite snd_pop, <- rev_tl. f_equal. symmetry. apply firstn_tl.
  Qed.
End P.
