(** C70: the performance measurements give what the history of calls tells. *)
From Coq Require Import List Bool Arith ZArith Lia.
From Verif Require Import Assoc PAMMModel PAMMSpec PAMMProofs.
Import ListNotations.
Local Open Scope Z_scope.

(** Every history ends, and stopAllTimers has enough fuel; with asserts nothing undefined
    happens, and a history that passes the asserts does the same without them. *)
Theorem C70_asserts {K} {EK : EqDec K} : forall h : list (op K),
  run true h <> None /\ run false h <> None /\ run true h <> Some UB /\
  (forall s, run true h = Some (Ok s) -> run false h = Some (Ok s)).
Proof.
  intros h. destruct (runFrom_debug h empty wf_empty) as [A B].
  repeat split; auto; apply runFrom_fuel, wf_empty.
Qed.
Print Assumptions C70_asserts.

(** The time of a timer depends only on the calls for it, and the calls that fail in a
    release build are determined by its state. *)
Theorem C70_timers {K} {EK : EqDec K} : forall dbg (h : list (op K)) s id now,
  run dbg h = Some (Ok s) ->
  elapsedTime dbg id now s =
    match timer id h with
    | Running t => Ok (ms (now - t))
    | Stopped t e => Ok (ms (e - t))
    | Idle => if dbg then Abort else Ok 0
    end /\
  (run dbg (h ++ [Start id now]) = Some Abort <-> timer id h <> Idle) /\
  (forall p, run false h = Some (Ok s) ->
     (run false (h ++ [Stop id p now]) = Some UB <-> exists t e, timer id h = Stopped t e)).
Proof.
  intros dbg h s id now E. destruct (run_shows _ _ _ E) as [W H]. specialize (H id).
  split; [now apply elapsed_shows|].
  assert (Last : forall b o, run b h = Some (Ok s) -> run b (h ++ [o]) = step b o s).
  { intros b o F. unfold run in *. revert F. generalize (@empty K). clear.
    induction h as [|a h IH]; intros s0 F; cbn [runFrom app] in *.
    - injection F as ->. destruct (step b o s) as [[| |]|]; reflexivity.
    - destruct (step b a s0) as [[s2| |]|]; try congruence. auto. }
  split.
  - rewrite (Last dbg (Start id now) E). cbn [step]. unfold startTimer, has.
    destruct (timer id h); destruct H as [H1 H2]; rewrite H1, H2; split; congruence.
  - intros p F. rewrite (Last false (Stop id p now) F). cbn [step]. unfold stopTimer, has. simpl.
    destruct (timer id h); destruct H as [H1 H2]; rewrite H1, H2; simpl; split; intros G; eauto;
      try congruence; try (destruct G as (? & ? & ?); congruence).
    destruct p; congruence.
Qed.
Print Assumptions C70_timers.

(** A started timer runs until a call ends it. *)
Theorem C70_running {K} {EK : EqDec K} : forall dbg id t (h1 h2 : list (op K)) s now,
  run dbg (h1 ++ Start id t :: h2) = Some (Ok s) -> (forall o, In o h2 -> ~ ends id o) ->
  elapsedTime dbg id now s = Ok (ms (now - t)).
Proof.
  intros dbg id t h1 h2 s now E N. apply runFrom_app in E as (s1 & E1 & E2). cbn [runFrom] in E2.
  destruct (runFrom_shows _ _ _ _ wf_empty E1) as [W1 H1].
  destruct (step dbg (Start id t) s1) as [[s2| |]|] eqn:S; try congruence.
  destruct (step_shows _ _ _ _ W1 S) as [W2 H2].
  assert (R : shows s2 id (Running t)).
  { specialize (H2 id _ (H1 id Idle (conj eq_refl eq_refl))). simpl in H2.
    destruct (eq_dec id id); [|congruence]. exact H2. }
  apply (elapsed_shows dbg s id (Running t)). eapply run_keeps; eauto.
Qed.
Print Assumptions C70_running.

(** A stopped timer keeps the time from its start to its stop, until it is reset. *)
Theorem C70_stopped {K} {EK : EqDec K} : forall dbg id t e o (h1 h2 h3 : list (op K)) s now,
  run dbg (h1 ++ Start id t :: h2 ++ o :: h3) = Some (Ok s) ->
  (forall x, In x h2 -> ~ ends id x) -> stops id e o -> ~ In (ResetT id) h3 ->
  elapsedTime dbg id now s = Ok (ms (e - t)).
Proof.
  intros dbg id t e o h1 h2 h3 s now E N O N3. apply runFrom_app in E as (s1 & E1 & E2). cbn [runFrom] in E2.
  destruct (runFrom_shows _ _ _ _ wf_empty E1) as [W1 H1].
  destruct (step dbg (Start id t) s1) as [[s2| |]|] eqn:S; try congruence.
  destruct (step_shows _ _ _ _ W1 S) as [W2 H2].
  assert (R : shows s2 id (Running t)).
  { specialize (H2 id _ (H1 id Idle (conj eq_refl eq_refl))). simpl in H2.
    destruct (eq_dec id id); [|congruence]. exact H2. }
  apply runFrom_app in E2 as (s3 & E3 & E4). cbn [runFrom] in E4.
  destruct (runFrom_shows _ _ _ _ W2 E3) as [W3 _].
  pose proof (run_keeps _ _ _ _ _ _ W2 R E3 N) as R3.
  destruct (step dbg o s3) as [[s4| |]|] eqn:S4; try congruence.
  destruct (step_shows _ _ _ _ W3 S4) as [W4 H4]. specialize (H4 id _ R3).
  assert (R4 : shows s4 id (Stopped t e)).
  { destruct O as [->| ->]; simpl in H4; [|exact H4]. destruct (eq_dec id id); [exact H4|congruence]. }
  apply (elapsed_shows dbg s id (Stopped t e)). eapply run_keeps_stopped; eauto.
Qed.
Print Assumptions C70_stopped.

(** The repeating timer of [id] has the intervals that ended with a pause, in order. *)
Theorem C70_pauses {K} {EK : EqDec K} : forall dbg (h : list (op K)) s id,
  run dbg h = Some (Ok s) ->
  afindd [] id (elapsedTimeOfRepeatingTimer s) =
    map (fun se => ms (snd se - fst se)) (pauses id Idle h).
Proof.
  intros dbg h s id E. unfold elapsedTimeOfRepeatingTimer.
  rewrite (afindd_map (map (fun se => ms (snd se - fst se))) []).
  rewrite (run_repeating dbg id h empty s Idle wf_empty (conj eq_refl eq_refl) E). reflexivity.
Qed.
Print Assumptions C70_pauses.

(** stopAllTimers never fails and leaves no timer running. *)
Theorem C70_stop_all {K} {EK : EqDec K} : forall dbg (h : list (op K)) s e,
  run dbg h = Some (Ok s) ->
  exists s', run dbg (h ++ [StopAll e]) = Some (Ok s') /\ running s' = [].
Proof.
  intros dbg h s e E. destruct (run_shows _ _ _ E) as [W _].
  destruct (stopLoop_spec dbg e (length (running s)) s W (le_n _)) as (s' & L & _ & R & _).
  exists s'. split; auto. apply runFrom_app. exists s. split; [exact E|].
  cbn [runFrom step]. now rewrite L.
Qed.
Print Assumptions C70_stop_all.

(** A counter is its initial value and what was added since, modulo 2^32; one that was never
    registered has no value. *)
Theorem C70_counter {K} {EK : EqDec K} : forall dbg (h : list (op K)) s id,
  run dbg h = Some (Ok s) ->
  (forall n h2, counts id n h2 h -> getCounter dbg id s = Ok (Some ((n + added id h2) mod 2 ^ 32))) /\
  ((forall o, In o h -> ~ registers id o) -> getCounter dbg id s = if dbg then Abort else Ok None).
Proof.
  intros dbg h s id E. unfold getCounter. split.
  - intros n h2 C. now rewrite (run_counts _ _ _ _ _ _ E C).
  - intros N. now rewrite (run_counter_none dbg id h empty s wf_empty E eq_refl N).
Qed.
Print Assumptions C70_counter.

(** The sum of fewer than 2^32 registered counters is exact; with an unregistered one there
    is none. *)
Theorem C70_sum {K} {EK : EqDec K} : forall dbg (h : list (op K)) s ids (n : K -> Z) (h2 : K -> list (op K)),
  run dbg h = Some (Ok s) -> Z.of_nat (length ids) < 2 ^ 32 ->
  (forall id, In id ids -> counts id (n id) (h2 id) h) ->
  getSumCount dbg ids s = Ok (Some (sumZ (map (fun id => (n id + added id (h2 id)) mod 2 ^ 32) ids))).
Proof.
  intros dbg h s ids n h2 E L C. unfold getSumCount.
  rewrite (sumFrom_spec dbg s (fun id => (n id + added id (h2 id)) mod 2 ^ 32)); [reflexivity| |lia|].
  - intros id I. split; [exact (run_counts _ _ _ _ _ _ E (C id I))|apply u32_range].
  - change (2 ^ 64) with (2 ^ 32 * 2 ^ 32). rewrite Z.add_0_l.
    apply Zmult_lt_compat_l; [reflexivity|exact L].
Qed.
Print Assumptions C70_sum.
Theorem C70_sum_unregistered {K} {EK : EqDec K} : forall (h : list (op K)) s ids id,
  run false h = Some (Ok s) -> In id ids -> (forall o, In o h -> ~ registers id o) ->
  getSumCount false ids s = Ok None.
Proof.
  intros h s ids id E I N. apply (sumFrom_none s ids 0 id I).
  exact (run_counter_none false id h empty s wf_empty E eq_refl N).
Qed.
Print Assumptions C70_sum_unregistered.

(** A data point is the sum of what was added since the histogram was registered. *)
Theorem C70_histogram {K} {EK : EqDec K} : forall dbg (h : list (op K)) s id dp h2,
  run dbg h = Some (Ok s) -> collects id h2 h ->
  exists hi, afind id (histogram s) = Some hi /\
    afind dp hi = match points id dp h2 with [] => None | l => Some (sumZ l mod 2 ^ 64) end.
Proof.
  intros dbg h s id dp h2 E C. pose proof (run_collects dbg id dp h2 h s E C) as H. unfold hist in H.
  destruct (afind id (histogram s)) as [hi|]; [|discriminate]. exists hi. split; auto.
  simpl in H. injection H as ->. reflexivity.
Qed.
Print Assumptions C70_histogram.

(** The parts of a duration are in range and give it back up to a microsecond. *)
Theorem C70_hms : forall ns h m s us, 0 <= ns -> hms ns = (h, m, s, us) ->
  0 <= h /\ 0 <= m < 60 /\ 0 <= s < 60 /\ 0 <= us < 1000000 /\
  0 <= ns - 1000 * (us + 1000000 * (s + 60 * (m + 60 * h))) < 1000.
Proof.
  intros ns h m s us H E. unfold hms in E. injection E as Eh Em Es Eu.
  destruct (quot_parts ns 3600000000000) as [A1 A2]; [lia|lia|]. rewrite Eh in *.
  destruct (quot_parts (ns - h * 3600000000000) 60000000000) as [B1 B2]; [lia|lia|]. rewrite Em in *.
  destruct (quot_parts (ns - h * 3600000000000 - m * 60000000000) 1000000000) as [C1 C2]; [lia|lia|].
  rewrite Es in *.
  destruct (quot_parts (ns - h * 3600000000000 - m * 60000000000 - s * 1000000000) 1000) as [D1 D2]; [lia|lia|].
  rewrite Eu in *. lia.
Qed.
Print Assumptions C70_hms.

(** Without asserts, stopping a stopped timer passes the check for valid timers and
    dereferences the end iterator; with asserts the same calls abort. *)
Theorem C70_stop_twice_refuted : exists h : list (op nat),
  (forall id now, In (Start id now) h -> exists p t, In (Stop id p t) h) /\
  run false h = Some UB /\ run true h = Some Abort.
Proof.
  exists [Start 1%nat 0; Stop 1%nat false 5; Stop 1%nat false 9].
  split; [|split; vm_compute; reflexivity].
  intros id now [F|[F|[F|[]]]]; try discriminate. injection F as <- <-. exists false, 5. simpl. auto.
Qed.
Print Assumptions C70_stop_twice_refuted.

(** A paused timer has no elapsed time: elapsedTime says 0 although time was measured. *)
Theorem C70_paused_refuted : exists (h : list (op nat)) s,
  run true h = Some (Ok s) /\ pauses 1%nat Idle h = [(0, 7000000)] /\
  elapsedTime false 1%nat 9000000 s = Ok 0 /\ elapsedTime true 1%nat 9000000 s = Abort.
Proof.
  exists [Start 1%nat 0; Stop 1%nat true 7000000]. eexists.
  split; [vm_compute; reflexivity|]. repeat split; vm_compute; reflexivity.
Qed.
Print Assumptions C70_paused_refuted.

(** resetTimer does not forget the intervals of a paused timer. *)
Theorem C70_reset_refuted : exists (h : list (op nat)) s,
  run true (h ++ [ResetT 1%nat]) = Some (Ok s) /\
  afindd [] 1%nat (elapsedTimeOfRepeatingTimer s) = [7].
Proof.
  exists [Start 1%nat 0; Stop 1%nat true 7000000; Start 1%nat 8000000]. eexists.
  split; [vm_compute; reflexivity|vm_compute; reflexivity].
Qed.
Print Assumptions C70_reset_refuted.

(** Counters wrap around. *)
Theorem C70_wrap_refuted : exists (h : list (op nat)) s,
  run true h = Some (Ok s) /\ counts 1%nat 0 [Dec 1%nat 1] h /\
  getCounter true 1%nat s = Ok (Some 4294967295).
Proof.
  exists [Reg 1%nat 0; Dec 1%nat 1]. eexists. split; [vm_compute; reflexivity|].
  split; [|vm_compute; reflexivity]. exists []. split; [reflexivity|]. intros o [].
Qed.
Print Assumptions C70_wrap_refuted.

(** A history that meets the hypotheses of all the theorems. *)
Definition sample : list (op nat) :=
  [Reg 1%nat 5; Start 1%nat 0; RegHist 3%nat; Inc 1%nat 4; Start 2%nat 1000000; Reg 2%nat 7;
   AddHist 3%nat 4%nat 2; Stop 2%nat true 3000000; Start 2%nat 4000000; AddHist 3%nat 4%nat 5;
   Dec 1%nat 2; StopAll 9000000; Inc 2%nat 1].
Example sample_runs : exists s, run true sample = Some (Ok s) /\
  elapsedTime true 1%nat 0 s = Ok 9 /\ elapsedTime true 2%nat 0 s = Ok 5 /\
  afindd [] 2%nat (elapsedTimeOfRepeatingTimer s) = [2] /\
  getSumCount true [1%nat; 2%nat] s = Ok (Some 15) /\
  afind 3%nat (histogram s) = Some [(4%nat, 7)].
Proof. eexists. split; [vm_compute; reflexivity|]. repeat split; vm_compute; reflexivity. Qed.
Example sample_counts : counts 1%nat 5 (tl sample) sample.
Proof. exists []. split; [reflexivity|]. intros o []. Qed.
Example sample_counts2 : exists h2, counts 2%nat 7 h2 sample /\ added 2%nat h2 = 1.
Proof.
  eexists. split; [exists (firstn 5 sample); split; [reflexivity|]|reflexivity].
  simpl. intros o H [n ->]. repeat (destruct H as [H|H]; [discriminate|]). exact H.
Qed.
Example sample_collects : collects 3%nat (skipn 3 sample) sample.
Proof.
  exists (firstn 2 sample). split; [reflexivity|]. simpl. intros [H|[H|[]]]; discriminate.
Qed.
Example sample_timers : timer 2%nat sample = Stopped 4000000 9000000 /\ timer 2%nat (firstn 10 sample) = Running 4000000.
Proof. split; reflexivity. Qed.
Example sample_hms : hms 3723004005006 = (1, 2, 3, 4005).
Proof. reflexivity. Qed.
