(** C30: sanitizer positions of the extended taint analysis. *)
From Coq Require Import Bool List Arith Lia.
From Verif Require Import Assoc XTaintModel XTaintSpec XTaintProofs.
Import ListNotations.

(** ** the join on the kinds of values *)
Theorem C30_join_kinds : forall succs fnOf dom bbo a,
  let j := join succs fnOf dom bbo in
  j a a = a
  /\ (j Top a = a /\ j a Top = a)
  /\ (j Bot a = Bot /\ j a Bot = Bot)
  /\ (a <> Bot -> j (With None) a = With None /\ j a (With None) = With None)
  /\ (a <> Top -> j San a = a /\ j a San = a).
Proof.
  intros. unfold j. split; [apply join_idem|]. split; [split; [apply join_top_l|apply join_top_r]|].
  split; [split; [apply join_bot_l|apply join_bot_r]|].
  split; intro H; split; auto using join_none_l, join_none_r, join_san_l, join_san_r.
Qed.
Print Assumptions C30_join_kinds.

(** Two sanitizers: one of them, the first instruction of a common successor
    block, or not sanitized; the latter whenever the functions differ *)
Theorem C30_join_positions : forall succs fnOf dom bbo s1 s2, s1 <> s2 ->
  let j := join succs fnOf dom bbo (With (Some s1)) (With (Some s2)) in
  (fnOf (blk s1) <> fnOf (blk s2) -> j = With None)
  /\ (j = With None \/ j = With (Some s1) \/ j = With (Some s2)
      \/ exists m, In m (succs (blk s1)) /\ In m (succs (blk s2)) /\ j = With (Some (mkInstr m 0))).
Proof.
  intros succs fnOf dom bbo s1 s2 N. cbv zeta.
  destruct (join_cases succs fnOf dom bbo s1 s2) as [E|[[F [E|[E|[m [[M1 M2] E]]]]]|E]].
  - auto.
  - split; [tauto|]. auto.
  - split; [tauto|]. auto.
  - split; [tauto|]. right. right. right. exists m. auto.
  - elim (N E).
Qed.
Print Assumptions C30_join_positions.

(** the diamond 0 -> 1,2 -> 3 *)
Definition diamond (b : nat) : list nat := match b with 0 => [1;2] | 1 | 2 => [3] | _ => [] end.
Definition domD (a b : instr) : bool := (blk a =? 0) && negb (blk b =? 0).
Definition at_ := mkInstr.
Example C30_diamond : join diamond (fun _ => 0) domD false (With (Some (at_ 1 4))) (With (Some (at_ 2 7)))
                      = With (Some (at_ 3 0)).
Proof. reflexivity. Qed.

(** ** commutativity *)
(** partial: not when one sanitizer is the first instruction of a successor of
    the other's block, nor when a block has two edges to the same successor *)
Theorem C30_join_commutative_partial : forall succs fnOf dom bbo a b,
  (forall x y, dom x y = true -> dom y x = false) ->
  (forall s1 s2, a = With (Some s1) -> b = With (Some s2) ->
     (forall m, In m (succs (blk s1)) -> s2 <> mkInstr m 0) /\ (forall m, In m (succs (blk s2)) -> s1 <> mkInstr m 0)
     /\ NoDup (succs (blk s1)) /\ NoDup (succs (blk s2))) ->
  join succs fnOf dom bbo a b = join succs fnOf dom bbo b a.
Proof. intros. now apply join_comm. Qed.
Print Assumptions C30_join_commutative_partial.

Example C30_commutative_hypotheses :
  (forall x y, domD x y = true -> domD y x = false) /\
  (forall s1 s2, With (Some (at_ 1 4)) = With (Some s1) -> With (Some (at_ 2 7)) = With (Some s2) ->
     (forall m, In m (diamond (blk s1)) -> s2 <> mkInstr m 0) /\ (forall m, In m (diamond (blk s2)) -> s1 <> mkInstr m 0)
     /\ NoDup (diamond (blk s1)) /\ NoDup (diamond (blk s2))).
Proof.
  split.
  - intros x y. unfold domD. destruct (blk x =? 0), (blk y =? 0); cbn; congruence.
  - intros s1 s2 E1 E2. injection E1 as <-. injection E2 as <-. cbn.
    repeat split; try (intros m [<-|[]]; discriminate); repeat constructor; auto.
Qed.

(** A sanitizer and the first instruction of the next block: the join is whichever comes second *)
Theorem C30_join_commutative_refuted : exists succs fnOf dom s1 s2,
  (forall b, NoDup (succs b)) /\
  join succs fnOf dom false (With (Some s1)) (With (Some s2)) <> join succs fnOf dom false (With (Some s2)) (With (Some s1)).
Proof.
  exists (fun b => match b with 0 => [1] | _ => [] end), (fun _ => 0), (fun _ _ => false), (at_ 0 1), (at_ 1 0).
  split; [intros [|b]; repeat constructor; auto|]. cbv. discriminate.
Qed.
Print Assumptions C30_join_commutative_refuted.

(** A switch with two cases that lead to the same block *)
Theorem C30_join_commutative_switch_refuted : exists succs fnOf dom s1 s2,
  (forall m, In m (succs (blk s1)) -> s2 <> mkInstr m 0) /\ (forall m, In m (succs (blk s2)) -> s1 <> mkInstr m 0) /\
  join succs fnOf dom false (With (Some s1)) (With (Some s2)) = With (Some (mkInstr 3 0)) /\
  join succs fnOf dom false (With (Some s2)) (With (Some s1)) = With None.
Proof.
  exists (fun b => match b with 1 => [3;3] | 2 => [3] | _ => [] end), (fun _ => 0), (fun _ _ => false), (at_ 1 1), (at_ 2 1).
  cbn. repeat split; intros m H; repeat destruct H as [<-|H]; try discriminate; destruct H.
Qed.
Print Assumptions C30_join_commutative_switch_refuted.

Theorem C30_join_associative_refuted : exists succs fnOf dom a b c,
  (forall n, NoDup (succs n)) /\
  join succs fnOf dom false (join succs fnOf dom false a b) c <> join succs fnOf dom false a (join succs fnOf dom false b c).
Proof.
  exists (fun b => match b with 1 | 2 => [3] | 3 | 4 => [5] | _ => [] end), (fun _ => 0), (fun _ _ => false),
    (With (Some (at_ 1 1))), (With (Some (at_ 2 1))), (With (Some (at_ 4 1))).
  split; [intros [|[|[|[|[|n]]]]]; repeat constructor; auto|]. cbv. discriminate.
Qed.
Print Assumptions C30_join_associative_refuted.

(** ** what a position claims *)
(** Without loops, the join at a merge point claims right: every execution that
    passes the sanitizer s and the point p passes s first. *)
Theorem C30_merged_position : forall succs entry s m p pre post,
  acyclic succs ->
  In m (succs (blk s)) ->
  dominates succs entry (mkInstr m 0) p ->
  path succs (pre ++ blk p :: post) -> hd_error (pre ++ blk p :: post) = Some entry ->
  In (blk s) (pre ++ blk p :: post) ->
  In (blk s) pre.
Proof. intros succs entry s m p pre post A M D P E I. exact (merged_before succs A entry s m p pre post M D P E I). Qed.
Print Assumptions C30_merged_position.

Lemma diamond_up : forall a b, In b (diamond a) -> a < b.
Proof. intros [|[|[|a]]] b; cbn; intros H; repeat destruct H as [<-|H]; try lia; destruct H. Qed.
Lemma diamond_path_up : forall p a z, path diamond (a :: p ++ [z]) -> a < z.
Proof.
  induction p as [|b p IH]; intros a z H.
  - destruct H as [H _]. now apply diamond_up.
  - destruct H as [H1 H2]. apply diamond_up in H1. specialize (IH b z H2). lia.
Qed.
Example C30_merged_hypotheses :
  acyclic diamond /\ In 3 (diamond (blk (at_ 1 4))) /\ dominates diamond 0 (mkInstr 3 0) (at_ 3 2)
  /\ path diamond ([0;1] ++ 3 :: []) /\ hd_error ([0;1] ++ [3]) = Some 0 /\ In 1 ([0;1] ++ [3]).
Proof.
  split. { intros b p H. apply diamond_path_up in H. lia. }
  split; [now left|]. split; [left; cbn; lia|]. cbn. auto 10.
Qed.

(** With loops it does not: the point may come first *)
Theorem C30_merged_position_loop_refuted : exists succs fnOf dom entry s1 s2 p m pre post,
  join succs fnOf dom false (With (Some s1)) (With (Some s2)) = With (Some (mkInstr m 0)) /\
  dominates succs entry (mkInstr m 0) p /\ mustComeBefore fnOf dom (mkInstr m 0) p = true /\
  path succs (pre ++ blk p :: post) /\ hd_error (pre ++ blk p :: post) = Some entry /\
  In (blk s1) post /\ ~ In (blk s1) pre /\ ~ In (blk s2) pre.
Proof.
  exists (fun b => match b with 0 => [1] | 1 => [2;3] | _ => [1] end), (fun _ => 0), (fun _ _ => false), 0,
    (at_ 2 1), (at_ 3 1), (at_ 1 1), 1, [0], [2].
  split; [reflexivity|]. split; [left; cbn; lia|]. cbn. intuition discriminate.
Qed.
Print Assumptions C30_merged_position_loop_refuted.

(** The joined value claims a point that one of the two sanitizers follows *)
Theorem C30_claims_both_refuted : forall bbo, exists succs fnOf dom a s1 s2 p,
  (a = (With (Some s1), With (Some s2)) \/ a = (With (Some s2), With (Some s1))) /\
  join succs fnOf dom bbo (fst a) (snd a) = With (Some s1) /\
  mustComeBefore fnOf dom s1 p = true /\ mustComeBefore fnOf dom s2 p = false /\ mustComeBefore fnOf dom p s2 = true.
Proof.
  intros [|].
  - exists (fun _ => []), (fun _ => 0), (fun _ _ => false), (With (Some (at_ 0 0)), With (Some (at_ 0 5))), (at_ 0 0), (at_ 0 5), (at_ 0 2).
    cbn. auto.
  - exists (fun b => match b with 0 => [1] | _ => [] end), (fun _ => 0), (fun a b => blk a <? blk b),
      (With (Some (at_ 1 0)), With (Some (at_ 0 1))), (at_ 0 1), (at_ 1 0), (at_ 0 2).
    cbn. auto.
Qed.
Print Assumptions C30_claims_both_refuted.

(** ** edge functions *)
(** Composition never claims more than running one after the other *)
Theorem C30_compose : forall succs fnOf dom f g x, safe f ->
  le (apply succs fnOf dom g (apply succs fnOf dom f x)) (apply succs fnOf dom (compose succs fnOf dom f g) x).
Proof. intros. now apply compose_safe. Qed.
Print Assumptions C30_compose.
Example C30_compose_case :
  safe (Compose (Transfer (Some (at_ 0 3)) (at_ 0 4)) (Kill None)) /\
  apply diamond (fun _ => 0) domD (compose diamond (fun _ => 0) domD (Compose (Transfer (Some (at_ 0 3)) (at_ 0 4)) (Kill None)) (Kill (Some (at_ 3 0))))
    (With (Some (at_ 0 1))) = San.
Proof. cbn. auto. Qed.

(** but may claim less: the constant San cannot be represented *)
Theorem C30_compose_exact_refuted : exists succs fnOf dom f g x,
  apply succs fnOf dom g (apply succs fnOf dom f x) = San /\
  apply succs fnOf dom (compose succs fnOf dom f g) x = With None.
Proof.
  exists diamond, (fun _ => 0), domD, (Gen (Some (at_ 0 1))), (Kill (Some (at_ 0 2))), Top. cbn. auto.
Qed.
Print Assumptions C30_compose_exact_refuted.

(** Two edges that carry the value past different loads are taken for equal; the
    join keeps one of them and claims a sanitizer the other path does not have *)
Theorem C30_transfer_join_refuted : exists succs fnOf dom f g x h,
  efEqb g f = true /\ joinBase f g = Some h /\
  apply succs fnOf dom g x = With None /\ ~ le (apply succs fnOf dom g x) (apply succs fnOf dom h x).
Proof.
  exists diamond, (fun _ => 0), domD, (Transfer (Some (at_ 0 5)) (at_ 3 1)), (Transfer (Some (at_ 0 1)) (at_ 3 1)),
    (With (Some (at_ 0 2))), (Transfer (Some (at_ 0 5)) (at_ 3 1)).
  split; [reflexivity|]. split; [reflexivity|]. split; [reflexivity|].
  cbn. intros [H|[H|[H|[[H _]|[H _]]]]]; discriminate.
Qed.
Print Assumptions C30_transfer_join_refuted.

Theorem C30_kill_monotone : forall succs fnOf dom l x y, le x y ->
  le (apply succs fnOf dom (Kill l) x) (apply succs fnOf dom (Kill l) y).
Proof.
  intros succs fnOf dom l x y [->|[->|[->|[[-> [s ->]]|[-> [s ->]]]]]].
  - now left.
  - right. now left.
  - right. right. now left.
  - cbn. destruct s as [s|]; [|right; right; right; left; eauto].
    destruct l as [l|]; [|now left]. destruct (_ && _); [now left|]. right. right. right. left. eauto.
  - cbn. destruct s as [s|]; [|now left].
    destruct l as [l|]; [|right; right; right; left; eauto].
    destruct (_ && _); [right; right; right; left; eauto|now left].
Qed.
Print Assumptions C30_kill_monotone.

Theorem C30_transfer_monotone_refuted : exists succs fnOf dom f x y,
  le x y /\ ~ le (apply succs fnOf dom f x) (apply succs fnOf dom f y).
Proof.
  exists diamond, (fun _ => 0), domD, (Transfer None (at_ 0 0)), Top, San.
  split; [right; now left|]. cbn. intros [H|[H|[H|[[H _]|[H _]]]]]; discriminate.
Qed.
Print Assumptions C30_transfer_monotone_refuted.
