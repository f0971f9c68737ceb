(** Proofs about the names of the enumerations. *)
From Coq Require Import String List Bool Arith Lia.
From Verif Require Import EnumNamesModel EnumNamesSpec.
Import ListNotations.

Lemma switch_sound sel T : forall k s i, stringSwitch (casesOf sel k T) Other s = Val i ->
  exists e, (k <= i)%nat /\ nth_error T (i - k) = Some e /\ sel e = s.
Proof.
  induction T as [|e T IH]; intros k s i H; simpl in H; [discriminate|].
  destruct (String.eqb (sel e) s) eqn:E.
  - injection H as <-. exists e. rewrite Nat.sub_diag. apply String.eqb_eq in E. auto.
  - destruct (IH _ _ _ H) as (e' & L & N & Q). exists e'. split; [lia|]. split; [|exact Q].
    replace (i - k)%nat with (S (i - S k)) by lia. exact N.
Qed.
Lemma switch_complete sel T : forall k s i e, nth_error T i = Some e -> sel e = s ->
  stringSwitch (casesOf sel k T) Other s <> Other.
Proof.
  induction T as [|e0 T IH]; intros k s i e N S; [destruct i; discriminate|].
  simpl. destruct (String.eqb (sel e0) s) eqn:E; [discriminate|].
  destruct i as [|i]; simpl in N; [|eauto].
  injection N as ->. rewrite S, String.eqb_refl in E. discriminate.
Qed.

Lemma from_sound T s i : fromString T s = Val i -> denotes T i s.
Proof.
  unfold fromString. destruct (stringSwitch (casesOf fst 0 T) Other s) as [j|] eqn:E; intros H.
  - injection H as ->. apply switch_sound in E as ([n f] & _ & N & S). rewrite Nat.sub_0_r in N.
    exists n, f. split; [exact N|left; symmetry; exact S].
  - apply switch_sound in H as ([n f] & _ & N & S). rewrite Nat.sub_0_r in N.
    exists n, f. split; [exact N|right; symmetry; exact S].
Qed.
Lemma from_complete T s i : denotes T i s -> fromString T s <> Other.
Proof.
  intros (n & f & N & D). unfold fromString.
  destruct (stringSwitch (casesOf fst 0 T) Other s) eqn:E; [discriminate|].
  destruct D as [->| ->].
  - destruct (switch_complete fst T 0 n i (n, f) N eq_refl E).
  - exact (switch_complete snd T 0 f i (n, f) N eq_refl).
Qed.

(** every name and flag of an entry is parsed as this entry *)
Definition checks (T : entries) (d : string) : bool :=
  forallb (fun i => match nth_error T i with
                    | Some (n, f) =>
                        match fromString T n, fromString T f with
                        | Val a, Val b => Nat.eqb a i && Nat.eqb b i
                        | _, _ => false
                        end
                    | None => true end) (seq 0 (length T)) &&
  match fromString T d with Other => true | _ => false end.
Lemma checks_spec T d : checks T d = true ->
  (forall i s, denotes T i s -> fromString T s = Val i) /\ fromString T d = Other.
Proof.
  intros H. apply andb_true_iff in H as [H D]. split.
  - intros i s (n & f & N & S). rewrite forallb_forall in H.
    assert (L : (i < length T)%nat) by (apply nth_error_Some; congruence).
    specialize (H i (proj2 (in_seq _ _ _) (conj (Nat.le_0_l i) L))). rewrite N in H.
    destruct (fromString T n) as [a|] eqn:A; [|discriminate].
    destruct (fromString T f) as [b|] eqn:B; [|discriminate].
    apply andb_true_iff in H as [Ha Hb]. apply Nat.eqb_eq in Ha, Hb.
    destruct S as [->| ->]; congruence.
  - destruct (fromString T d); [discriminate|reflexivity].
Qed.
Lemma enums_check : forallb (fun p => checks (fst p) (snd p)) enums = true.
Proof. vm_compute. reflexivity. Qed.
