(** C19: BitVectorSet is a set.  C20: equal sets hash equally. *)
From Coq Require Import List Bool Arith NArith Lia.
From Verif Require Import Assoc BitVectorSetModel BitVectorSetSpec BitVectorSetProofs.
Import ListNotations.

(** No history of any number of sets is undefined, and membership is that of
    the mathematical sets. *)
Theorem C19_membership : forall (T : Type) `{EqDec T} (cs : list (op T)),
  exists s, run cs init = Some s /\
    forall o x, count x (position s) (obj o s) = meaningAll cs o x.
Proof. intros. destruct (run_init cs) as (s & E & _ & M). eauto. Qed.
Print Assumptions C19_membership.

Lemma reach : forall (T : Type) `{EqDec T} (cs : list (op T)) s, run cs init = Some s ->
  NoDup (position s) /\ (forall o i, bget i (obj o s) = true -> i < length (position s)) /\
  forall o x, count x (position s) (obj o s) = meaningAll cs o x.
Proof.
  intros T H cs s E. destruct (run_init cs) as (s' & E' & [N I] & M).
  rewrite E in E'. injection E' as <-. auto.
Qed.

Lemma lists_ext {T} (l : list T) f g : (forall x, f x = g x) -> lists l f -> lists l g.
Proof. intros E [A B]. split; auto. intros x. now rewrite B, E. Qed.

Theorem C19_size : forall (T : Type) `{EqDec T} (cs : list (op T)) s, run cs init = Some s ->
  forall o l, lists l (meaningAll cs o) -> bcount (obj o s) = length l.
Proof.
  intros T H cs s E o l L. destruct (reach T cs s E) as (N & I & M).
  apply size_lists with (p := position s); eauto. eapply lists_ext; [|exact L]. intros x. auto.
Qed.
Print Assumptions C19_size.

Theorem C19_empty : forall (T : Type) `{EqDec T} (cs : list (op T)) s, run cs init = Some s ->
  forall o, bnone (obj o s) = true <-> forall x, meaningAll cs o x = false.
Proof.
  intros T H cs s E o. destruct (reach T cs s E) as (N & I & M).
  rewrite (none_counts (position s)) by eauto. split; intros A x; specialize (A x); rewrite ?M in *; auto.
Qed.
Print Assumptions C19_empty.

(** A loop over a set visits every element once ... *)
Theorem C19_iteration : forall (T : Type) `{EqDec T} (cs : list (op T)) s, run cs init = Some s ->
  forall o, exists l, iterate (fun _ p => p) (position s) (obj o s) = Some l /\
    lists l (meaningAll cs o) /\ length l = bcount (obj o s).
Proof.
  intros T H cs s E o. destruct (reach T cs s E) as (N & I & M).
  destruct (iterate_ok (fun _ p => p) (position s) (obj o s)) as (l & El & L); eauto.
  { intros x q Q. split; auto. exists []. now rewrite app_nil_r. }
  exists l. split; auto. split; [eapply lists_ext; [|exact L]; intros; apply M|].
  symmetry. apply size_lists with (p := position s); eauto.
Qed.
Print Assumptions C19_iteration.

(** ... also when the loop body inserts new values into other sets, if the
    global table was already longer than this set's bit vector ... *)
Theorem C19_iteration_with_insertions_partial :
  forall (T : Type) `{EqDec T} (cs : list (op T)) s, run cs init = Some s ->
  forall o body, (forall x q, NoDup q -> NoDup (body x q) /\ exists r, body x q = q ++ r) ->
  length (obj o s) < length (position s) ->
  exists l, iterate body (position s) (obj o s) = Some l /\ lists l (meaningAll cs o).
Proof.
  intros T H cs s E o body G L. destruct (reach T cs s E) as (N & I & M).
  destruct (iterate_ok body (position s) (obj o s)) as (l & El & Ll); eauto.
  exists l. split; auto. eapply lists_ext; [|exact Ll]. intros; apply M.
Qed.
Print Assumptions C19_iteration_with_insertions_partial.

(** ... but not in general: for (x : A) B.insert(x + 100) with A = {5} leaves
    A and is undefined, whatever the number of iterations allowed. *)
Definition insertOther (x : nat) (p : list nat) : list nat :=
  match insert (x + 100) p [] with Some (p', _) => p' | None => p end.
Theorem C19_iteration_with_insertions_refuted : exists s, run [Insert 0 5] init = Some s /\
  forall fuel, loop fuel insertOther (position s) (obj 0 s)
                 (begin (position s) (obj 0 s)) (end_ (position s) (obj 0 s)) = None.
Proof.
  eexists. split; [reflexivity|]. intros [|[|fuel]]; [reflexivity|reflexivity|].
  reflexivity.
Qed.
Print Assumptions C19_iteration_with_insertions_refuted.

Theorem C19_equality : forall (T : Type) `{EqDec T} (cs : list (op T)) s, run cs init = Some s ->
  forall a b, bvsEq (obj a s) (obj b s) = true <-> forall x, meaningAll cs a x = meaningAll cs b x.
Proof.
  intros T H cs s E a b. destruct (reach T cs s E) as (N & I & M).
  rewrite (eq_counts (position s)) by eauto. split; intros A x; specialize (A x); rewrite ?M in *; auto.
Qed.
Print Assumptions C19_equality.

Theorem C19_inclusion : forall (T : Type) `{EqDec T} (cs : list (op T)) s, run cs init = Some s ->
  forall a b, includes (obj a s) (obj b s) = true <->
    forall x, meaningAll cs b x = true -> meaningAll cs a x = true.
Proof.
  intros T H cs s E a b. destruct (reach T cs s E) as (N & I & M).
  rewrite (includes_counts (position s)) by eauto.
  split; intros A x; specialize (A x); rewrite ?M in *; auto.
Qed.
Print Assumptions C19_inclusion.

(** operator< is a strict order, total up to operator==. *)
Theorem C19_less_is_strict_total_order : forall a b c : bits,
  isLess a a = false /\
  (isLess a b = true -> isLess b c = true -> isLess a c = true) /\
  (bvsEq a b = true <-> isLess a b = false /\ isLess b a = false).
Proof.
  intros a b c. rewrite bvsEq_val, !isLess_val, N.eqb_eq, !N.ltb_lt, !N.ltb_ge. lia.
Qed.
Print Assumptions C19_less_is_strict_total_order.

(** ** C20 *)
Theorem C20_equal_nonempty_sets_hash_equally_partial : forall range a b,
  bnone a = false -> bvsEq a b = true -> hash_value range a = hash_value range b.
Proof. exact hash_nonempty_sets. Qed.
Print Assumptions C20_equal_nonempty_sets_hash_equally_partial.

(** A set erased back to empty equals a fresh set, but is hashed as an empty
    range and not as hash_code{}.  (llvm::hash_combine_range of an empty range
    is k2 ^ seed, which is not 0.) *)
Theorem C20_equal_sets_hash_equally_refuted : forall range : list N -> N, range [] <> 0%N ->
  exists s, run [Insert 0 5; Erase 0 5] init = Some s /\
    bvsEq (obj 0 s) (obj 1 s) = true /\
    hash_value range (obj 0 s) <> hash_value range (obj 1 s).
Proof. intros range R. eexists. split; [reflexivity|]. split; [reflexivity|]. exact R. Qed.
Print Assumptions C20_equal_sets_hash_equally_refuted.

(** ** A history with three sets *)
Definition h3 : list (op nat) :=
  [Insert 0 7; Insert 1 8; Insert 0 9; Create 2 70; Insert 2 9; Insert 2 8; Insert 2 7; Union 3 0 1;
   Erase 2 8; InsertSet 4 3; EraseSet 4 1; Intersect 5 3 4; IntersectWith 3 2; Insert 6 1; Clear 6; Copy 7 5].
Example C19_instance : exists s, run h3 init = Some s /\
  length (obj 2 s) = 70 /\ length (obj 3 s) = 3 /\
  bvsEq (obj 2 s) (obj 3 s) = true /\ bvsEq (obj 2 s) (obj 1 s) = false /\
  iterate (fun _ p => p) (position s) (obj 2 s) = Some [7; 9] /\
  iterate insertOther (position s) (obj 0 s) = Some [7; 9] /\
  includes (obj 5 s) (obj 7 s) = true /\ includes (obj 0 s) (obj 1 s) = false /\
  isLess (obj 1 s) (obj 2 s) = true /\ bcount (obj 7 s) = 2 /\ bnone (obj 6 s) = true /\
  hash_value (fold_right N.add 1%N) (obj 2 s) = hash_value (fold_right N.add 1%N) (obj 3 s).
Proof. eexists. split; [vm_compute; reflexivity|]. repeat (split; [vm_compute; reflexivity|]). vm_compute. reflexivity. Qed.
Example C19_instance_lists : lists [7; 9] (meaningAll h3 2).
Proof.
  split; [repeat constructor; cbn; lia|]. intros x. cbn [In]. split.
  - intros [<-|[<-|[]]]; reflexivity.
  - intros E. destruct (Nat.eq_dec x 7) as [->|]; [auto|]. destruct (Nat.eq_dec x 9) as [->|]; [auto|].
    exfalso. revert E. cbn. unfold eqb. repeat (destruct (eq_dec x _); [subst; try discriminate; try congruence|]); cbn; discriminate.
Qed.
