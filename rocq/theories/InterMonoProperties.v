(** C26: the inter-procedural monotone solver. *)
From Coq Require Import List Bool Arith NArith Lia.
From Verif Require Import Assoc CallStringModel CallStringProofs InterMonoModel InterMonoSpec InterMonoProofs.
Import ListNotations.

(** ** What holds *)

(** If no call site has several callees, all functions that can be entered are
    analysed: each of their control-flow edges starts at a node with an entry.
    The general case is refuted below. *)
Theorem C26_single_callees_are_covered_partial : forall {Nd M F} `{EqDec Nd} `{EqDec F} K zero (c : icfg Nd F) (P : problem Nd M F) fuel st,
  (forall s, isCallSite c s = true -> length (calleesOf c s) <= 1) -> solve K zero c P fuel = Some st ->
  forall f s d, called c P f -> In (s, d) (allEdges c f) -> afind [] (rowOf s (tab st)) <> None.
Proof.
  intros Nd M F E1 E2 K zero c P fuel st Single Hs f s d Hc He.
  destruct (covered_loop K zero c P (fun _ => True) I (fun _ _ _ _ => I) (fun _ _ => I) Single fuel _ st
              (fun _ _ _ => I) (covered_initialize c P (fun _ => True) I) Hs) as [C W].
  assert (R : forall f, called c P f -> (exists n x, In (n, x) (initialSeeds P) /\ functionOf c n = f) \/ In f (added st)).
  { intros g Hg. induction Hg as [n x Hin|g h a b Hg IH He' Cs Hin]; [left; eauto|]. right.
    destruct (C g a b IH He') as [_ B]. destruct (B Cs) as [Hw|Hi]; auto. rewrite W in Hw. destruct Hw. }
  destruct (C f s d (R f Hc) He) as [Pr _]. intros Hn. now apply afind_None in Hn.
Qed.
Print Assumptions C26_single_callees_are_covered_partial.

(** Contexts are strings of at most K call sites. *)
Theorem C26_contexts_are_k_limited : forall {Nd M F} `{EqDec Nd} `{EqDec F} K zero (c : icfg Nd F) (P : problem Nd M F) fuel st,
  (1 <= K < 2 ^ 32)%N -> solve K zero c P fuel = Some st ->
  forall n x m, afind x (rowOf n (tab st)) = Some m -> length x <= N.to_nat K /\ Forall (fun s => isCallSite c s = true) x.
Proof.
  intros Nd M F E1 E2 K zero c P fuel st HK Hs n x m Hx.
  set (Q := fun x : list Nd => length x <= N.to_nat K /\ Forall (fun s => isCallSite c s = true) x).
  assert (Q0 : Q []) by (split; [cbn; lia|constructor]).
  apply (good_loop K zero c P Q Q0) with (fuel := fuel) (st := initialize c P) (st' := st) (n := n); auto.
  - intros s y Cs [A B]. unfold push_back, size. rewrite (limit_ok K HK). split.
    + rewrite app_length. cbn. destruct (N.ltb_spec (K - 1) (N.of_nat (length y))) as [L|L]; [|lia].
      destruct y; cbn in *; lia.
    + apply Forall_app. split; [|repeat constructor; auto]. destruct (K - 1 <? N.of_nat (length y))%N; auto.
      destruct B; [constructor|auto].
  - intros y [A B]. rewrite snd_pop. split.
    + destruct y as [|a y]; auto. destruct (@exists_last _ (a :: y)) as (l & z & E); [discriminate|]. rewrite E, removelast_last.
      rewrite E, app_length in A. lia.
    + destruct y as [|a y]; auto. destruct (@exists_last _ (a :: y)) as (l & z & E); [discriminate|]. rewrite E in *. rewrite removelast_last.
      now apply Forall_app in B.
  - now apply good_initialize.
  - eapply afind_Some_key; eauto.
Qed.
Print Assumptions C26_contexts_are_k_limited.

Definition on (l : list (nat * list nat)) (n : nat) : list nat := afindd [] n l.
Definition no : nat -> list nat := fun _ => [].

(** main 0 -> 1 calls f 10 -> 11 in 0, which calls g 20 -> 21 in 10; fact 5 gets
    everywhere *)
Definition chain := line [[0; 1]; [10; 11]; [20; 21]] (on [(0, [1]); (10, [2])]).
Definition chainP := sets no no no [(0, [5])].
Example C26_ex_hypotheses : (forall s, isCallSite chain s = true -> length (calleesOf chain s) <= 1) /\ called chain chainP 2.
Proof.
  split.
  - intros s _. cbn. unfold on, afindd, afind. destruct (eq_dec s 0); [auto|]. destruct (eq_dec s 10); auto.
  - apply (called_by chain chainP 1 2 10 11); try (cbn; auto; fail). apply (called_by chain chainP 0 1 0 1); try (cbn; auto; fail).
    apply (called_seed chain chainP 0 [5]). cbn. auto.
Qed.
Example C26_ex_result : exists st, solve 2 0 chain chainP 300 = Some st /\ getResultsAt chainP 21 st = [5] /\
  map fst (rowOf 21 (tab st)) = [[]; [10]; [0; 10]].
Proof. eexists. split; [vm_compute; reflexivity|]. split; vm_compute; reflexivity. Qed.

(** ** What does not *)

(** A callee listed behind one that was already added is never entered, if the
    facts at the call site do not change: 1 calls function 1, called before in
    0, and function 2, where 20 generates fact 7. *)
Theorem C26_every_callee_refuted : exists (c : icfg nat nat) (P : problem nat (list nat) nat) st,
  solve 3 0 c P 100 = Some st /\ called c P 2 /\ In (20, 21) (allEdges c 2) /\ afind [] (rowOf 20 (tab st)) = None /\
  flows c P 21 [1] [7] /\ ~ In 7 (getResultsAt P 21 st).
Proof.
  set (c := line [[0; 1; 2]; [10; 11]; [20; 21]] (on [(0, [1]); (1, [1; 2])])).
  set (P := sets (on [(20, [7])]) no no [(0, [])]). exists c, P. eexists. split; [vm_compute; reflexivity|].
  split; [|split; [cbn; auto|split; [reflexivity|split]]].
  - apply (called_by c P 0 2 1 2); try (cbn; auto; fail). apply (called_seed c P 0 []). cbn. auto.
  - change [7] with (normalFlow P 20 (callFlow P 1 2 (callToRetFlow P 0 1 [1] []))).
    apply fl_normal; try reflexivity; [|cbn; auto]. apply fl_call; try reflexivity; try (cbn; auto; fail).
    apply (fl_call_to_return c P 0 1 [] []); try reflexivity; [apply fl_seed; cbn; auto|cbn; auto].
  - vm_compute. tauto.
Qed.
Print Assumptions C26_every_callee_refuted.

(** Even with single callees, the second call of a function is only looked at
    when the facts before it change. *)
Theorem C26_second_call_site_refuted : exists (c : icfg nat nat) (P : problem nat (list nat) nat) st,
  (forall s, isCallSite c s = true -> length (calleesOf c s) <= 1) /\
  solve 3 0 c P 100 = Some st /\ flows c P 10 [1] [7] /\ ~ In 7 (getResultsAt P 10 st).
Proof.
  set (c := line [[0; 1; 2]; [10; 11]] (on [(0, [1]); (1, [1])])).
  set (P := sets no (on [(1, [7])]) no [(0, [])]). exists c, P. eexists. split; [|split; [vm_compute; reflexivity|split]].
  - intros s _. cbn. unfold on, afindd, afind. destruct (eq_dec s 0); [auto|]. destruct (eq_dec s 1); auto.
  - change [7] with (callFlow P 1 1 (callToRetFlow P 0 1 [1] [])).
    apply (fl_call c P 1 1 10 []); try reflexivity; try (cbn; auto; fail).
    apply (fl_call_to_return c P 0 1 [] []); try reflexivity; [apply fl_seed; cbn; auto|cbn; auto].
  - vm_compute. tauto.
Qed.
Print Assumptions C26_second_call_site_refuted.

(** Facts that come back from a callee are stored at the return site but not
    propagated any further. *)
Theorem C26_returned_facts_refuted : exists (c : icfg nat nat) (P : problem nat (list nat) nat) st,
  solve 3 0 c P 100 = Some st /\ flows c P 1 [] [7] /\ In 7 (getResultsAt P 1 st) /\
  flows c P 2 [] [7] /\ ~ In 7 (getResultsAt P 2 st).
Proof.
  set (c := line [[0; 1; 2]; [10; 11]] (on [(0, [1])])).
  set (P := sets (on [(10, [7])]) no no [(0, [])]). exists c, P. eexists. split; [vm_compute; reflexivity|].
  assert (G : flows c P 1 [] [7]).
  { change [7] with (returnFlow P 0 1 11 1 (normalFlow P 10 (callFlow P 0 1 []))).
    apply (fl_return c P 11 0 1 []); try reflexivity; [|cbn; auto]. apply fl_normal; try reflexivity; [|cbn; auto].
    apply (fl_call c P 0 1 10 []); try reflexivity; try (cbn; auto; fail). apply fl_seed. cbn. auto. }
  split; auto. split; [vm_compute; auto|]. split.
  - change [7] with (normalFlow P 1 [7]). apply fl_normal; try reflexivity; [exact G|cbn; auto].
  - vm_compute. tauto.
Qed.
Print Assumptions C26_returned_facts_refuted.

(** A seed in a function that is also called is wiped when the function is
    added; here a recursive one. *)
Theorem C26_seed_in_called_function_refuted : exists (c : icfg nat nat) (P : problem nat (list nat) nat) st,
  solve 3 0 c P 100 = Some st /\ flows c P 0 [] [5] /\ ~ In 5 (getResultsAt P 0 st).
Proof.
  set (c := line [[0; 1; 2]] (on [(1, [0])])).
  set (P := sets no no no [(0, [5])]). exists c, P. eexists. split; [vm_compute; reflexivity|].
  split; [apply fl_seed; cbn; auto|vm_compute; tauto].
Qed.
Print Assumptions C26_seed_in_called_function_refuted.
(** So is the first of two seeds in one function. *)
Theorem C26_two_seeds_refuted : exists (c : icfg nat nat) (P : problem nat (list nat) nat) st,
  solve 3 0 c P 100 = Some st /\ flows c P 0 [] [5] /\ ~ In 5 (getResultsAt P 0 st).
Proof.
  set (c := line [[0; 1; 2]] no). set (P := sets no no no [(0, [5]); (1, [6])]). exists c, P. eexists.
  split; [vm_compute; reflexivity|]. split; [apply fl_seed; cbn; auto|vm_compute; tauto].
Qed.
Print Assumptions C26_two_seeds_refuted.

(** The edge of a directly recursive call stays within the function, so it is
    handled with the call-to-return flow: what callFlow adds is missing. *)
Theorem C26_recursive_call_refuted : exists (c : icfg nat nat) (P : problem nat (list nat) nat) st,
  solve 3 0 c P 100 = Some st /\ flows c P 10 [11; 0] [7] /\ ~ In 7 (getResultsAt P 10 st).
Proof.
  set (c := line [[0; 1]; [10; 11; 12]] (on [(0, [1]); (11, [1])])).
  set (P := sets no (on [(11, [7])]) no [(0, [])]). exists c, P. eexists. split; [vm_compute; reflexivity|]. split.
  - change [7] with (callFlow P 11 1 (normalFlow P 10 (callFlow P 0 1 []))).
    apply (fl_call c P 11 1 10 [0]); try reflexivity; try (cbn; auto; fail).
    apply (fl_normal c P 10 11 [0]); try reflexivity; [|cbn; auto].
    apply (fl_call c P 0 1 10 []); try reflexivity; try (cbn; auto; fail). apply fl_seed. cbn. auto.
  - vm_compute. tauto.
Qed.
Print Assumptions C26_recursive_call_refuted.

(** A fact returns to a call site it was not passed from, although the contexts
    are long enough to tell the two calls apart: fact 5 enters function 1 from 0
    only and is gone after 1. *)
Theorem C26_returns_to_the_caller_refuted : exists (c : icfg nat nat) (P : problem nat (list nat) nat) st,
  solve 3 0 c P 100 = Some st /\ In 5 (getResultsAt P 3 st) /\ forall stack x, flows c P 3 stack x -> ~ In 5 x.
Proof.
  set (c := line [[0; 1; 2; 3]; [10; 11]] (on [(0, [1]); (2, [1])])).
  set (P := sets no no (on [(0, [5]); (1, [5])]) [(0, [5])]). exists c, P. eexists. split; [vm_compute; reflexivity|].
  split; [vm_compute; auto|].
  assert (G : forall n stack x, flows c P n stack x ->
     (n = 0 \/ n = 1) /\ stack = [] \/ (n = 2 \/ n = 3) /\ stack = [] /\ ~ In 5 x \/
     (n = 10 \/ n = 11) /\ (stack = [0] \/ stack = [2] /\ ~ In 5 x)).
  { assert (F5 : forall x : list nat, ~ In 5 (filter (fun a => negb (existsb (Nat.eqb a) [5])) x)).
    { intros x Hx. apply filter_In in Hx as [_ Hx]. cbn in Hx. discriminate. }
    assert (F0 : forall x : list nat, ~ In 5 x -> ~ In 5 (filter (fun a => negb (existsb (Nat.eqb a) [])) x)).
    { intros x Hn Hx. apply filter_In in Hx as [Hx _]. auto. }
    intros n stack x Hf. induction Hf as [n x Hin|n m st x Hf IH Hc He Hm|n f s st x Hf IH Hc Hfn Hs|n r st x Hf IH Hc Hr|n cs r st x Hf IH Hc He Hr].
    - destruct Hin as [Heq|[]]. injection Heq as <- <-. auto.
    - destruct IH as [[[-> | ->] ->]|[[[-> | ->] [-> Hx]]|[[-> | ->] Hst]]]; cbn in Hc, He; try discriminate; destruct Hm as [<-|[]].
      + right. left. split; auto. split; auto. apply F5.
      + right. right. split; auto. destruct Hst as [|[-> Hx]]; auto. right. split; auto. apply F0. exact Hx.
    - destruct IH as [[[-> | ->] ->]|[[[-> | ->] [-> Hx]]|[[-> | ->] Hst]]]; cbn in Hc; try discriminate;
        destruct Hfn as [<-|[]]; destruct Hs as [<-|[]].
      + right. right. auto.
      + right. right. split; auto.
    - destruct IH as [[[-> | ->] ->]|[[[-> | ->] [-> Hx]]|[[-> | ->] Hst]]]; cbn in Hc; try discriminate; destruct Hr as [<-|[]].
      + left. auto.
      + right. left. split; auto. split; auto. apply F0. exact Hx.
    - destruct IH as [[_ Hst]|[[_ [Hst _]]|[[-> | ->] Hst]]]; try discriminate; cbn in He; try discriminate.
      destruct Hst as [Hst|[Hst Hx]]; injection Hst as -> ->; destruct Hr as [<-|[]]; auto. }
  intros stack x Hf. destruct (G 3 stack x Hf) as [[[|] _]|[[_ [_ Hx]]|[[|] _]]]; auto; discriminate.
Qed.
Print Assumptions C26_returns_to_the_caller_refuted.

(** Two contexts of a call site that are cut to the same context of the callee
    overwrite each other for ever.  This needs no more than a chain of two calls
    with K = 1, since every function starts with the empty context too. *)
Section Diverge.
  Notation E := [(0, 1); (10, 11); (20, 21); (0, 10); (10, 20); (21, 11); (11, 1)].
  Implicit Types st : @state nat (list nat) nat.

  Lemma akeys_aset {B} (k : list nat) (v : B) l : In k (akeys l) -> akeys (aset k v l) = akeys l.
  Proof.
    induction l as [|[k' v'] l IH]; cbn; [contradiction|]. intros Hk. destruct (eq_dec k k') as [->|Hn]; cbn; auto.
    f_equal. apply IH. destruct Hk as [Hk|Hk]; [exfalso; now apply Hn|exact Hk].
  Qed.
  Lemma row_update n s d x out st : n <> d -> rowOf n (tab (update chain chainP s d x out st)) = rowOf n (tab st).
  Proof.
    intros Hn. unfold update. destruct (equal_to chainP out _); cbn [tab]; [now apply rowOf_touch|].
    rewrite rowOf_put. replace (eqb n d) with false by (symmetry; now apply eqb_false). now apply rowOf_touch.
  Qed.
  Lemma wl_update s d x out st : worklist (update chain chainP s d x out st) = worklist st \/
    worklist (update chain chainP s d x out st) = worklist st ++ again chain s d.
  Proof. unfold update. destruct (equal_to chainP out _); auto. Qed.
  Definition same st st' : Prop :=
    rowOf 0 (tab st') = rowOf 0 (tab st) /\ rowOf 10 (tab st') = rowOf 10 (tab st) /\ added st' = added st /\
    incl (worklist st) (worklist st') /\ (incl (worklist st) E -> incl (worklist st') E).
  Lemma same_refl st : same st st.
  Proof. repeat split; auto using incl_refl. Qed.
  Lemma again_E s d : In (s, d) E -> incl (again chain s d) E.
  Proof. intros He. cbn [In] in He. repeat destruct He as [He|He]; try (injection He as <- <-; intros e; cbn; tauto). contradiction. Qed.
  Lemma wl_same s d x out st : In (s, d) E -> incl (worklist st) (worklist (update chain chainP s d x out st)) /\
    (incl (worklist st) E -> incl (worklist (update chain chainP s d x out st)) E).
  Proof.
    intros He. destruct (wl_update s d x out st) as [-> | ->]; split; auto using incl_refl.
    - apply incl_appl, incl_refl.
    - intros Hi. apply incl_app; auto. now apply again_E.
  Qed.
  Lemma same_update s d x out st0 st : In (s, d) E -> d <> 0 -> d <> 10 -> same st0 st -> same st0 (update chain chainP s d x out st).
  Proof.
    intros He H0 H1 (A & B & C & D & F). destruct (wl_same s d x out st He) as [W1 W2].
    split; [rewrite row_update; auto|]. split; [rewrite row_update; auto|]. split; [now rewrite added_update|].
    split; [eapply incl_tran; eauto|auto].
  Qed.
  Lemma rets_ok n r : In r (returnSites chain n) -> r <> 0 /\ r <> 10.
  Proof.
    cbn [chain line returnSites]. intros Hin. apply in_map_iff in Hin as ([a b] & <- & Hin). apply filter_In in Hin as [Hin _].
    cbn in Hin. repeat destruct Hin as [Hin|Hin]; try (injection Hin as <- <-; cbn; lia). contradiction.
  Qed.
  Lemma same_exit s d st : d <> 0 -> d <> 10 -> same st (processExit 0 chain chainP s d st).
  Proof.
    intros H0 H1. unfold processExit. apply (fold_inv (fun a => same st (snd a))); [|apply same_refl]. intros [outs s'] x _ Hs. unfold exitCtx.
    destruct (match x with [] => _ | _ => _ end) as [sites x']. cbn [snd] in *.
    assert (R : forall r, In r (fold_left (fun l cs => fold_left (fun l r => sinsert r l) (returnSites chain cs) l) sites []) -> r <> 0 /\ r <> 10).
    { enough (G : Forall (fun r => r <> 0 /\ r <> 10) (fold_left (fun l cs => fold_left (fun l r => sinsert r l) (returnSites chain cs) l) sites []))
        by (intros r; apply (proj1 (Forall_forall _ _) G)).
      apply (fold_inv (Forall (fun r => r <> 0 /\ r <> 10))); [|constructor]. intros l cs _ Hl.
      apply (fold_inv (Forall (fun r => r <> 0 /\ r <> 10))); auto. intros l' r Hr Hl'. apply Forall_forall. intros y Hy.
      apply In_sinsert in Hy as [->|Hy]; [eapply rets_ok; eauto|]. now apply (proj1 (Forall_forall _ _) Hl'). }
    apply (fold_inv (same st)); auto. intros s1 r Hr S1. destruct (R r Hr) as [R0 R1]. destruct S1 as (A & B & C & D & F).
    destruct (equal_to chainP _ _); split; cbn [tab worklist added]; try (split; auto).
    - rewrite rowOf_touch; auto.
    - rewrite rowOf_touch; auto.
    - rewrite !rowOf_put. replace (eqb 0 d) with false by (symmetry; now apply eqb_false; auto).
      replace (eqb 0 r) with false by (symmetry; apply eqb_false; auto). rewrite rowOf_touch; auto.
    - rewrite !rowOf_put. replace (eqb 10 d) with false by (symmetry; apply eqb_false; auto).
      replace (eqb 10 r) with false by (symmetry; apply eqb_false; auto). rewrite rowOf_touch; auto.
  Qed.

  Definition stuck st : Prop :=
    akeys (rowOf 0 (tab st)) = [[]] /\ In 5 (get chainP 0 [] (tab st)) /\
    akeys (rowOf 10 (tab st)) = [[]; [0]] /\ ~ In 5 (get chainP 10 [] (tab st)) /\ In 5 (get chainP 10 [0] (tab st)) /\
    In (10, 20) (worklist st) /\ incl (worklist st) E /\ incl [1; 2] (added st).
  Lemma stuck_same st st' : same st st' -> stuck st -> stuck st'.
  Proof.
    intros (A & B & C & D & F) (S1 & S2 & S3 & S4 & S5 & S6 & S7 & S8). unfold stuck, get in *. rewrite A, B, C.
    repeat (split; auto).
  Qed.
  Lemma subset_ok x y : subset x y = true <-> incl x y.
  Proof.
    unfold subset. rewrite forallb_forall. split; intros Hs a Ha; specialize (Hs a Ha).
    - apply existsb_exists in Hs as (b & Hb & Heq). apply Nat.eqb_eq in Heq as ->. exact Hb.
    - apply existsb_exists. exists a. split; auto. apply Nat.eqb_refl.
  Qed.
  Lemma equal_to_ok x y : equal_to chainP x y = true <-> incl x y /\ incl y x.
  Proof. cbn. rewrite andb_true_iff, !subset_ok. reflexivity. Qed.
  Lemma get_put n x m (A : list (nat * list (list nat * list nat))) x' : get chainP n x' (put n x m A) = if eqb x' x then m else get chainP n x' A.
  Proof. unfold get. rewrite rowOf_put, eqb_refl. unfold afindd. rewrite afind_aset. unfold eqb. destruct (eq_dec x' x); reflexivity. Qed.
  Lemma get_touch n x (A : list (nat * list (list nat * list nat))) x' : get chainP n x' (touch chainP n x A) = get chainP n x' A.
  Proof.
    unfold touch. destruct (afind x (rowOf n A)) eqn:Ef; auto. rewrite get_put. destruct (eqb x' x) eqn:Ex; auto.
    apply eqb_eq in Ex as ->. unfold get, afindd. now rewrite Ef.
  Qed.
  (** after an update the entry is as good as [out] *)
  Lemma get_update s d x out st : incl (get chainP d x (tab (update chain chainP s d x out st))) out /\
    incl out (get chainP d x (tab (update chain chainP s d x out st))).
  Proof.
    unfold update. destruct (equal_to chainP out _) eqn:Eq; cbn [tab].
    - apply equal_to_ok in Eq. tauto.
    - rewrite get_put, eqb_refl. split; apply incl_refl.
  Qed.

  Lemma stuck_step s d wl st : worklist st = (s, d) :: wl -> stuck st -> stuck (step 1 0 chain chainP s d wl st).
  Proof.
    intros Hw (S1 & S2 & S3 & S4 & S5 & S6 & S7 & S8). rewrite Hw in *.
    assert (He : In (s, d) E) by (apply S7; cbn; auto).
    set (st0 := mkState (tab st) wl (added st)).
    assert (I0 : incl (worklist st0) E) by (intros e Hin; apply S7; right; exact Hin).
    assert (M1 : mem 1 (added st) = true) by (apply mem_true, S8; cbn; auto).
    assert (M2 : mem 2 (added st) = true) by (apply mem_true, S8; cbn; auto).
    assert (St0 : In (10, 20) wl -> stuck st0).
    { intros Hin. split; [exact S1|]. split; [exact S2|]. split; [exact S3|]. split; [exact S4|]. split; [exact S5|]. split; [exact Hin|]. split; [exact I0|exact S8]. }
    assert (Tail : (s, d) <> (10, 20) -> In (10, 20) wl) by (intros Hn; destruct S6; [congruence|auto]).
    cbn [In] in He. unfold step. fold st0. destruct He as [He|[He|[He|[He|[He|[He|[He|[]]]]]]]]; injection He as <- <-.
    - (* call to return in main *)
      change (isCallSite chain 0) with true. cbn iota. change (calleesOf chain 0) with [1]. cbn [addCallees st0 added]. rewrite M1. fold st0.
      apply (stuck_same st0); [|apply St0, Tail; congruence]. unfold processCall. change (isIntraEdge chain 0 1) with true. cbn iota.
      apply (fold_inv (same st0)); [|apply same_refl]. intros s' x _ Hs. apply same_update; [cbn; tauto|lia|lia|exact Hs].
    - change (isCallSite chain 10) with true. cbn iota. change (calleesOf chain 10) with [2]. cbn [addCallees st0 added]. rewrite M2. fold st0.
      apply (stuck_same st0); [|apply St0, Tail; congruence]. unfold processCall. change (isIntraEdge chain 10 11) with true. cbn iota.
      apply (fold_inv (same st0)); [|apply same_refl]. intros s' x _ Hs. apply same_update; [cbn; tauto|lia|lia|exact Hs].
    - change (isCallSite chain 20) with false. change (isExitInst chain 20) with false. cbn iota.
      apply (stuck_same st0); [|apply St0, Tail; congruence]. unfold processNormal.
      apply (fold_inv (same st0)); [|apply same_refl]. intros s' x _ Hs.
      change (normalOut chain chainP (tab s') 20 21 x) with (normalFlow chainP 20 (get chainP 20 x (tab s')), tab s'). cbn iota.
      replace (mkState (tab s') (worklist s') (added s')) with s' by (destruct s'; reflexivity). apply same_update; [cbn; tauto|lia|lia|exact Hs].
    - (* the call of f *)
      change (isCallSite chain 0) with true. cbn iota. change (calleesOf chain 0) with [1]. cbn [addCallees st0 added]. rewrite M1. fold st0.
      specialize (St0 (Tail ltac:(congruence))). unfold processCall. change (isIntraEdge chain 0 10) with false. cbn iota.
      change (tab st0) with (tab st) at 1. rewrite S1. cbn [fold_left]. change (push_back 1 0 []) with [0].
      set (out := callFlow chainP 0 (functionOf chain 10) (get chainP 0 [] (tab st0))).
      destruct (wl_same 0 10 [0] out st0) as [W1 W2]; [cbn; auto|].
      assert (K10 : akeys (rowOf 10 (tab (update chain chainP 0 10 [0] out st0))) = [[]; [0]] /\
                    get chainP 10 [] (tab (update chain chainP 0 10 [0] out st0)) = get chainP 10 [] (tab st)).
      { unfold update.
        assert (T : touch chainP 10 [0] (tab st0) = tab st).
        { apply (touch_present chainP 10 [0] (tab st)). unfold present. rewrite S3. cbn. auto. }
        rewrite T. destruct (equal_to chainP out _); cbn [tab]; [split; auto|]. rewrite rowOf_put, get_put. split; auto.
        rewrite eqb_refl. etransitivity; [apply akeys_aset|exact S3]. assert (I1 : In [0] (akeys (rowOf 10 (tab st)))) by (rewrite S3; cbn; auto). exact I1. }
      destruct K10 as [K1 K2]. split; [rewrite row_update by lia; exact S1|].
      split; [unfold get; rewrite row_update by lia; exact S2|]. split; [exact K1|]. split; [rewrite K2; exact S4|].
      split; [apply get_update; exact S2|]. destruct St0 as (_ & _ & _ & _ & _ & T6 & T7 & T8). split; [now apply W1|]. split; [now apply W2|].
      now rewrite added_update.
    - (* the call of g *)
      change (isCallSite chain 10) with true. cbn iota. change (calleesOf chain 10) with [2]. cbn [addCallees st0 added]. rewrite M2. fold st0.
      unfold processCall. change (isIntraEdge chain 10 20) with false. cbn iota. change (tab st0) with (tab st) at 1. rewrite S3. cbn [fold_left].
      change (push_back 1 10 []) with [10]. change (push_back 1 10 [0]) with [10]. change (functionOf chain 20) with 2.
      set (out := callFlow chainP 10 2 (get chainP 10 [] (tab st0))). set (st1 := update chain chainP 10 20 [10] out st0).
      assert (G1 : get chainP 10 [0] (tab st1) = get chainP 10 [0] (tab st)) by (unfold get, st1; now rewrite row_update by lia).
      rewrite G1. set (out2 := callFlow chainP 10 2 (get chainP 10 [0] (tab st))).
      assert (Ss : same st0 (update chain chainP 10 20 [10] out2 st1)).
      { apply same_update; [cbn; tauto|lia|lia|]. apply same_update; [cbn; tauto|lia|lia|]. apply same_refl. }
      destruct Ss as (A & B & C & D & F). split; [rewrite A; exact S1|]. split; [unfold get; rewrite A; exact S2|]. split; [rewrite B; exact S3|].
      split; [unfold get; rewrite B; exact S4|]. split; [unfold get; rewrite B; exact S5|].
      split; [|split; [now apply F|rewrite C; exact S8]].
      destruct (wl_update 10 20 [10] out2 st1) as [W|W]; [|rewrite W; apply in_or_app; right; cbn; auto].
      exfalso. unfold update in W. destruct (equal_to chainP out2 (get chainP 20 [10] (touch chainP 20 [10] (tab st1)))) eqn:Eq.
      + apply equal_to_ok in Eq as [Eq _]. rewrite get_touch in Eq. apply S4. change (In 5 out).
        apply (proj1 (get_update 10 20 [10] out st0)). apply Eq. exact S5.
      + cbn [worklist] in W. apply (f_equal (@length _)) in W. rewrite app_length in W. cbn in W. lia.
    - change (isCallSite chain 21) with false. change (isExitInst chain 21) with true. cbn iota.
      apply (stuck_same st0); [|apply St0, Tail; congruence]. apply same_exit; lia.
    - change (isCallSite chain 11) with false. change (isExitInst chain 11) with true. cbn iota.
      apply (stuck_same st0); [|apply St0, Tail; congruence]. apply same_exit; lia.
  Qed.
  Lemma stuck_loop fuel : forall st, stuck st -> loop 1 0 chain chainP fuel st = None.
  Proof.
    induction fuel as [|fuel IH]; cbn [loop]; intros st Hs; assert (Hw := Hs); destruct Hw as (_ & _ & _ & _ & _ & Hw & _);
      destruct (worklist st) as [|[s d] wl] eqn:Ew; try contradiction; auto. apply IH. now apply stuck_step.
  Qed.
  Fixpoint steps (k : nat) st : option state :=
    match k with
    | 0 => Some st
    | S k' => match worklist st with [] => None | (a, b) :: wl => steps k' (step 1 0 chain chainP a b wl st) end
    end.
  Lemma steps_none k : forall st st', steps k st = Some st' -> (forall fuel, loop 1 0 chain chainP fuel st' = None) ->
    forall fuel, loop 1 0 chain chainP fuel st = None.
  Proof.
    induction k as [|k IH]; cbn; intros st st' Hs Hf fuel; [injection Hs as ->; auto|].
    destruct (worklist st) as [|[a b] wl] eqn:Ew; [discriminate|]. destruct fuel; cbn [loop]; rewrite Ew; auto. eapply IH; eauto.
  Qed.
End Diverge.
Theorem C26_contexts_overwrite_each_other_refuted : exists (c : icfg nat nat) (P : problem nat (list nat) nat),
  (forall s, isCallSite c s = true -> length (calleesOf c s) <= 1) /\ (forall fuel, solve 1 0 c P fuel = None).
Proof.
  exists chain, chainP. split; [apply C26_ex_hypotheses|].
  assert (G : exists st, steps 12 (initialize chain chainP) = Some st /\ stuck st).
  { eexists. split; [vm_compute; reflexivity|]. split; [vm_compute; reflexivity|]. split; [vm_compute; auto|].
    split; [vm_compute; reflexivity|]. split; [vm_compute; tauto|]. split; [vm_compute; auto|]. split; [cbn; tauto|].
    split; [intros e; cbn; tauto|]. intros f. cbn. tauto. }
  destruct G as (st & H1 & H2). intros fuel. apply (steps_none 12 _ st H1). intros k. now apply stuck_loop.
Qed.
Print Assumptions C26_contexts_overwrite_each_other_refuted.
