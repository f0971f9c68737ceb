(** C24: k-limited call strings. *)
From Coq Require Import List Bool NArith Lia Arith String.
From Verif Require Import Assoc CallStringModel CallStringSpec CallStringProofs.
Import ListNotations.

(** After any calls and returns, the context holds the innermost frames of the
    real call stack, outermost first: exactly those a memory of K frames still
    knows. *)
Theorem C24_context_is_the_top_of_the_stack : forall {Nd} (zero : Nd) K (os : list (op Nd)),
  (1 <= K < 2 ^ 32)%N ->
  run zero K os [] = rev (firstn (known (N.to_nat K) os 0) (stack os [])) /\
  known (N.to_nat K) os 0 <= List.length (stack os []) /\
  (size (run zero K os []) <= K)%N.
Proof.
  intros Nd zero K os HK. destruct (run_ok zero K HK os [] 0) as (E & A & B); cbn; try lia.
  rewrite firstn_nil in E. cbn [rev] in E. rewrite E. split; auto. split; auto.
  unfold size. rewrite rev_length, firstn_length_le by auto. lia.
Qed.
Print Assumptions C24_context_is_the_top_of_the_stack.

(** If the stack never gets deeper than K, the context is the whole stack. *)
Theorem C24_exact_up_to_depth_K : forall {Nd} (zero : Nd) K (os : list (op Nd)),
  (1 <= K < 2 ^ 32)%N -> (N.of_nat (depth os 0) <= K)%N -> run zero K os [] = rev (stack os []).
Proof.
  intros Nd zero K os HK Hd. destruct (C24_context_is_the_top_of_the_stack zero K os HK) as (E & _ & _).
  rewrite E. f_equal. clear E.
  assert (G : forall os (s : list Nd), N.to_nat K >= depth os (List.length s) ->
    known (N.to_nat K) os (List.length s) = List.length (stack os s)).
  { clear. induction os as [|[x|] os IH]; intros s Hd; cbn [known stack depth] in *; auto.
    - replace (Nat.min (N.to_nat K) (List.length s + 1)) with (List.length (x :: s)).
      + apply IH. cbn [List.length]. rewrite Nat.add_1_r in Hd. lia.
      + cbn [List.length]. assert (List.length s + 1 <= depth os (List.length s + 1)) by (destruct os as [|[|]]; cbn [depth]; lia). lia.
    - replace (List.length s - 1) with (List.length (tl s)) by (destruct s; cbn [List.length tl]; lia). apply IH.
      destruct s; cbn [List.length tl Nat.sub] in *; [lia|]. rewrite Nat.sub_0_r in Hd. lia. }
  specialize (G os []). cbn [List.length] in G. rewrite G by lia. apply firstn_all.
Qed.
Print Assumptions C24_exact_up_to_depth_K.

(** pop_back returns the call site of the innermost frame while it is known,
    and N{} once the memory is used up. *)
Theorem C24_pop_returns_the_innermost_call : forall {Nd} (zero : Nd) K (os : list (op Nd)),
  (1 <= K < 2 ^ 32)%N ->
  fst (pop_back zero (run zero K os [])) = if known (N.to_nat K) os 0 =? 0 then zero else hd zero (stack os []).
Proof.
  intros Nd zero K os HK. destruct (C24_context_is_the_top_of_the_stack zero K os HK) as (E & B & _). rewrite E.
  destruct (known (N.to_nat K) os 0) as [|k]; [reflexivity|]. destruct (stack os []) as [|x s]; cbn in B; [lia|].
  cbn [firstn rev hd Nat.eqb]. unfold pop_back. destruct (rev (firstn k s) ++ [x]) eqn:E'; [now destruct (rev (firstn k s))|].
  rewrite <- E'. cbn [fst]. now rewrite last_last.
Qed.
Print Assumptions C24_pop_returns_the_innermost_call.

(** Equality is equality of content, and equal contexts have equal hashes. *)
Theorem C24_equality_is_equality_of_content : forall {Nd} `{EqDec Nd} (a b : callString (Nd := Nd)) hd hu K,
  (isEqual a b = true <-> a = b) /\ isDifferent a b = negb (isEqual a b) /\
  (isEqual a b = true -> hash hd hu K a = hash hd hu K b).
Proof.
  intros Nd E a b hd hu K. assert (A : isEqual a b = true <-> a = b) by (unfold isEqual; split; [apply eqb_eq|intros ->; apply eqb_refl]).
  split; auto. split; auto. intros Hab. now apply A in Hab as ->.
Qed.
Print Assumptions C24_equality_is_equality_of_content.

(** The constructor accepts exactly the call strings that fit. *)
Theorem C24_constructor_limits : forall {Nd} K (l : list Nd),
  (ofList K l = Some l /\ (size l <= K)%N) \/ (ofList K l = None /\ (K < size l)%N).
Proof. intros Nd K l. unfold ofList. destruct (N.ltb_spec K (size l)); [right|left]; split; auto. Qed.
Print Assumptions C24_constructor_limits.

(** recursion deeper than K = 2: 3 calls and a return leave one known frame;
    a second return leaves none although a frame is left *)
Example C24_ex : run 0 2 [Push 1; Push 2; Push 3; Pop] [] = [2] /\ stack [Push 1; Push 2; Push 3; Pop] [] = [2; 1] /\
  known 2 [Push 1; Push 2; Push 3; Pop] 0 = 1 /\ run 0 2 [Push 1; Push 2; Push 3; Pop; Pop] [] = [] /\
  run 0 2 [Push 1; Push 2; Push 3] [] = [2; 3] /\ depth [Push 1; Pop; Push 2; Push 3] 0 = 2.
Proof. repeat split; reflexivity. Qed.

(** With K = 0 the unsigned subtraction wraps and nothing is ever dropped. *)
Theorem C24_K_zero_refuted : exists os : list (op nat), (size (run 0%nat 0 os []) > 0)%N.
Proof. exists [Push 1]. vm_compute. reflexivity. Qed.
Print Assumptions C24_K_zero_refuted.
Theorem C24_K_zero_is_unlimited : forall {Nd} (zero : Nd) (l : list Nd),
  (N.of_nat (List.length l) < 2 ^ 32)%N -> run zero 0 (map Push l) [] = l.
Proof.
  intros Nd zero l Hl.
  assert (G : forall l c, (N.of_nat (List.length (c ++ l)) < 2 ^ 32)%N -> run zero 0 (map Push l) c = c ++ l).
  { clear. induction l as [|x l IH]; intros c Hc; cbn [map run]; [now rewrite app_nil_r|].
    cbn [step]. rewrite IH.
    - unfold push_back. replace (limitMinus1 0) with (2 ^ 32 - 1)%N by reflexivity.
      rewrite app_length in Hc. cbn [List.length] in Hc. unfold size.
      destruct (N.ltb_spec (2 ^ 32 - 1) (N.of_nat (List.length c))); [lia|]. now rewrite <- app_assoc.
    - unfold push_back. replace (limitMinus1 0) with (2 ^ 32 - 1)%N by reflexivity.
      rewrite !app_length in *. cbn [List.length] in *. unfold size.
      destruct (N.ltb_spec (2 ^ 32 - 1) (N.of_nat (List.length c))); [lia|]. lia. }
  apply (G l []). exact Hl.
Qed.
Print Assumptions C24_K_zero_is_unlimited.

(** print separates call sites only where they differ from the last one. *)
Theorem C24_print_separates_refuted : exists (str : nat -> string) (a b : callString (Nd := nat)),
  (forall x y, str x = str y -> x = y \/ x > 2 \/ y > 2) /\ List.length a <> List.length b /\ print 0 str a = print 0 str b.
Proof.
  exists (fun x => match x with 0 => "r" | 1 => "rr" | 2 => "s" | _ => "t" end)%string, [0; 0], [1].
  split; [|split; [discriminate|reflexivity]].
  intros [|[|[|x]]] [|[|[|y]]]; cbn; intros E; try discriminate; lia.
Qed.
Print Assumptions C24_print_separates_refuted.
