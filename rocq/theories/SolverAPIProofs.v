From Coq Require Import List Bool NArith Lia.
From Verif Require Import Assoc TableModel JumpFunctionsModel IDESolverModel SolverAPIModel.
Import ListNotations.

Section P.
  Context {St : Type}.
  Variable doNext : St -> option St.
  Variable pending : St -> bool.
  Hypothesis next_defined : forall st, doNext st <> None <-> pending st = true.

  (** The state after exactly k steps, each on a non-empty worklist *)
  Fixpoint after (k : nat) (st : St) : option St :=
    match k with
    | 0 => Some st
    | S k' => match doNext st with Some st' => after k' st' | None => None end
    end.

  Lemma after_add a : forall b st st' , after a st = Some st' -> after (a + b) st = after b st'.
  Proof.
    induction a; cbn; intros b st st' Ha; [now injection Ha as ->|].
    destruct (doNext st); [|discriminate]. now apply IHa.
  Qed.

  Lemma after_pending k : forall st st', after k st = Some st' -> 0 < k -> pending st = true.
  Proof.
    destruct k; cbn; intros st st' H0 Hk; [lia|].
    apply next_defined. now destruct (doNext st).
  Qed.

  (** The state with an empty worklist on a trajectory is unique *)
  Lemma after_final_unique st a b sa sb :
    after a st = Some sa -> after b st = Some sb ->
    pending sa = false -> pending sb = false -> a = b /\ sa = sb.
  Proof.
    assert (W : forall a b sa sb, a <= b -> after a st = Some sa -> after b st = Some sb ->
              pending sa = false -> a = b).
    { intros a0 b0 sa0 sb0 Hle Ha Hb Hp.
      replace b0 with (a0 + (b0 - a0)) in Hb by lia.
      rewrite (after_add _ _ _ _ Ha) in Hb.
      destruct (b0 - a0) eqn:E; [lia|].
      pose proof (after_pending _ _ _ Hb ltac:(lia)). congruence. }
    intros Ha Hb Pa Pb.
    assert (a = b).
    { destruct (PeanoNat.Nat.le_ge_cases a b); [eapply W; eauto|symmetry; eapply W; eauto]. }
    subst. split; congruence.
  Qed.

  (** r is on the trajectory of st; Done only with an empty worklist *)
  Definition traj (st : St) (r : res St) : Prop :=
    match r with
    | Done st' => exists k, after k st = Some st' /\ pending st' = false
    | More st' => exists k, after k st = Some st'
    | _ => True
    end.

  Lemma traj_trans st st1 k r : after k st = Some st1 -> traj st1 r -> traj st r.
  Proof.
    intros Ha. destruct r; cbn; auto.
    - intros (j & Hj & Hp). exists (k + j). rewrite (after_add _ _ _ _ Ha). auto.
    - intros (j & Hj). exists (k + j). now rewrite (after_add _ _ _ _ Ha).
  Qed.

  Lemma next_traj st : traj st (next doNext pending st).
  Proof.
    unfold next. destruct (doNext st) as [st'|] eqn:E; cbn; auto.
    destruct (pending st') eqn:Ep; cbn; exists 1; cbn; rewrite E; auto.
  Qed.

  Lemma next_More_after st st' : next doNext pending st = More st' -> after 1 st = Some st' /\ pending st' = true.
  Proof.
    unfold next; cbn. destruct (doNext st) as [s|]; [|discriminate].
    destruct (pending s) eqn:E; [|discriminate]. intros [= ->]. auto.
  Qed.

  Lemma nextN_traj k : forall st, traj st (nextN doNext pending k st).
  Proof.
    induction k; cbn [nextN]; intros st; [exists 0; reflexivity|].
    pose proof (next_traj st) as Hn.
    destruct (next doNext pending st) as [s|s| |] eqn:E; auto.
    apply next_More_after in E as [E _]. eapply traj_trans; eauto.
  Qed.

  Lemma continueImpl_traj f : forall st, traj st (continueImpl doNext pending f st).
  Proof.
    induction f; cbn [continueImpl]; intros st; [exact I|].
    pose proof (next_traj st) as Hn.
    destruct (next doNext pending st) as [s|s| |] eqn:E; auto.
    apply next_More_after in E as [E _]. eapply traj_trans; eauto.
  Qed.

  Lemma untilLoop_traj f : forall c i d k j num st,
    traj st (untilLoop doNext pending f c i d k j num st).
  Proof.
    induction f; cbn [untilLoop]; intros c i d k j num st; [exact I|].
    pose proof (nextN_traj (N.to_nat num) st) as Hn.
    destruct (nextN doNext pending (N.to_nat num) st) as [s|s| |]; auto.
    - destruct (c k); auto. destruct Hn as (q & Hq & _). now exists q.
    - destruct (c k); auto. destruct (adapt num i (d j)); [|exact I].
      destruct Hn as (q & Hq). eapply traj_trans; eauto.
  Qed.

  Lemma asyncLoop_traj f : forall c k st, traj st (asyncLoop doNext pending f c k st).
  Proof.
    induction f; cbn [asyncLoop]; intros c k st; [exact I|].
    pose proof (next_traj st) as Hn.
    destruct (next doNext pending st) as [s|s| |] eqn:E; auto.
    - destruct (c k); auto. destruct Hn as (q & Hq & _). now exists q.
    - destruct (c k); auto. apply next_More_after in E as [E _]. eapply traj_trans; eauto.
  Qed.

  Lemma initialize_traj st : traj st (initialize pending st).
  Proof. unfold initialize. destruct (pending st) eqn:E; exists 0; auto. Qed.

  Lemma doStart_traj s st : traj st (doStart doNext pending s st).
  Proof.
    pose proof (initialize_traj st) as Hi.
    assert (W : forall s, initialize pending st = More s -> s = st).
    { unfold initialize. intros s0. destruct (pending st); congruence. }
    destruct s as [|f|f c i d|f c]; cbn; auto.
    - unfold solveImpl. destruct (initialize pending st) eqn:E; auto.
      rewrite (W _ eq_refl). apply continueImpl_traj.
    - unfold solveUntilImpl. destruct (c 0); [now exists 0|].
      destruct (initialize pending st) eqn:E; auto.
      rewrite (W _ eq_refl). apply untilLoop_traj.
    - unfold solveWithAsyncCancellationImpl. destruct (c 0); [now exists 0|].
      destruct (initialize pending st) eqn:E; auto.
      rewrite (W _ eq_refl). apply asyncLoop_traj.
  Qed.

  Lemma doCont_traj s st : traj st (doCont doNext pending s st).
  Proof.
    destruct s as [|k|f|f c i d|f c]; cbn.
    - apply next_traj.
    - apply nextN_traj.
    - apply continueImpl_traj.
    - apply untilLoop_traj.
    - apply asyncLoop_traj.
  Qed.

  Lemma conts_traj cs : forall st r, traj st r -> traj st (conts doNext pending cs r).
  Proof.
    induction cs as [|c cs IH]; cbn; intros st r Hr; auto.
    destruct r; [exact I| |auto|auto]. destruct Hr as [k Hk]. apply IH.
    eapply traj_trans; eauto. apply doCont_traj.
  Qed.

  Lemma session_traj s cs st : traj st (session doNext pending s cs st).
  Proof. apply conts_traj, doStart_traj. Qed.

  Lemma continueImpl_Done k : forall st st',
    after k st = Some st' -> pending st' = false -> 0 < k ->
    forall f, k <= f -> continueImpl doNext pending f st = Done st'.
  Proof.
    induction k; intros st st' Ha Hp Hk f Hf; [lia|].
    destruct f as [|f]; [lia|]. cbn in Ha |- *. unfold next.
    destruct (doNext st) as [s|] eqn:E; [|discriminate].
    destruct k as [|k].
    - injection Ha as ->. now rewrite Hp.
    - rewrite (after_pending _ _ _ Ha ltac:(lia)). apply IHk; auto; lia.
  Qed.

  Lemma solveImpl_Done k st st' :
    after k st = Some st' -> pending st' = false ->
    forall f, k <= f -> solveImpl doNext pending f st = Done st'.
  Proof.
    intros Ha Hp f Hf. unfold solveImpl, initialize. destruct k.
    - injection Ha as ->. now rewrite Hp.
    - rewrite (after_pending _ _ _ Ha ltac:(lia)). eapply continueImpl_Done; eauto; lia.
  Qed.

  (** C06 *)
  Lemma session_equals_solve s cs st0 st :
    session doNext pending s cs st0 = Done st ->
    (exists f, solveImpl doNext pending f st0 = Done st) /\
    (forall f st', solveImpl doNext pending f st0 = Done st' -> st' = st).
  Proof.
    intros Hs. pose proof (session_traj s cs st0) as Ht. rewrite Hs in Ht.
    destruct Ht as (k & Hk & Hp). split.
    - exists k. eapply solveImpl_Done; eauto.
    - intros f st' Hf. pose proof (doStart_traj (SSolve f) st0) as Ht. cbn in Ht. rewrite Hf in Ht.
      destruct Ht as (k' & Hk' & Hp'). now destruct (after_final_unique _ _ _ _ _ Hk' Hk Hp' Hp).
  Qed.

  Lemma session_prefix s cs st0 st :
    session doNext pending s cs st0 = More st -> exists k, after k st0 = Some st.
  Proof. intros Hs. pose proof (session_traj s cs st0) as Ht. now rewrite Hs in Ht. Qed.

  (** a state on the way to the final state reaches it *)
  Lemma after_resume n : forall st0 fin k st,
    after n st0 = Some fin -> pending fin = false -> after k st0 = Some st -> pending st = true ->
    k < n /\ after (n - k) st = Some fin.
  Proof.
    intros st0 fin k st Hn Hp Hk Hps.
    assert (k < n).
    { destruct (PeanoNat.Nat.lt_ge_cases k n) as [|Hge]; auto.
      replace k with (n + (k - n)) in Hk by lia. rewrite (after_add _ _ _ _ Hn) in Hk.
      destruct (k - n) eqn:E; cbn in Hk; [congruence|].
      assert (doNext fin = None) as R.
      { destruct (doNext fin) eqn:E'; auto.
        assert (pending fin = true) by (apply next_defined; congruence). congruence. }
      now rewrite R in Hk. }
    split; auto.
    replace n with (k + (n - k)) in Hn by lia. now rewrite (after_add _ _ _ _ Hk) in Hn.
  Qed.

  Lemma session_resumes s cs st0 st f fin :
    session doNext pending s cs st0 = More st -> pending st = true ->
    solveImpl doNext pending f st0 = Done fin ->
    exists f', continueImpl doNext pending f' st = Done fin.
  Proof.
    intros Hs Hp Hf. destruct (session_prefix _ _ _ _ Hs) as [k Hk].
    pose proof (doStart_traj (SSolve f) st0) as Ht. cbn in Ht. rewrite Hf in Ht.
    destruct Ht as (n & Hn & Hpn).
    destruct (after_resume _ _ _ _ _ Hn Hpn Hk Hp) as [Hlt Ha].
    exists (n - k). eapply continueImpl_Done; eauto; lia.
  Qed.

  (** C07: stepping from a state with a non-empty worklist is never UB *)
  Lemma continueImpl_safe f : forall st, pending st = true -> continueImpl doNext pending f st <> UB.
  Proof.
    induction f; cbn; intros st Hp; [discriminate|].
    unfold next. destruct (doNext st) as [s|] eqn:E.
    - destruct (pending s) eqn:Es; [now apply IHf|discriminate].
    - apply next_defined in Hp. congruence.
  Qed.

  (** C08 *)
  Lemma nextN_stuck st : nextN doNext pending 0 st = More st.
  Proof. reflexivity. Qed.

  Lemma adapt_zero i d n : adapt 0 i d = Some n -> n = 0%N.
  Proof.
    unfold adapt. destruct (d =? 0)%N eqn:E; [discriminate|].
    apply N.eqb_neq in E. intros [= <-]. destruct d; [congruence|reflexivity].
  Qed.

  Lemma untilLoop_livelock f : forall c i d k j st,
    (forall q, c q = false) -> (forall q, d q <> 0%N) ->
    untilLoop doNext pending f c i d k j 0 st = NoFuel.
  Proof.
    induction f; cbn [untilLoop]; intros c i d k j st Hc Hd; auto.
    change (N.to_nat 0) with 0. cbn [nextN]. rewrite Hc.
    destruct (adapt 0 i (d j)) eqn:E.
    - apply adapt_zero in E. subst. auto.
    - unfold adapt in E. destruct (d j =? 0)%N eqn:E'; [|discriminate].
      apply N.eqb_eq in E'. now destruct (Hd j).
  Qed.

  Lemma nextN_More k : forall st st',
    after k st = Some st' -> pending st' = true -> nextN doNext pending k st = More st'.
  Proof.
    induction k; cbn [after nextN]; intros st st' Ha Hp; [now injection Ha as ->|].
    unfold next. destruct (doNext st) as [s|]; [|discriminate].
    destruct k as [|k].
    - injection Ha as ->. now rewrite Hp.
    - rewrite (after_pending _ _ _ Ha ltac:(lia)). now apply IHk.
  Qed.

  Lemma nextN_Done n : forall k st st',
    after k st = Some st' -> pending st' = false -> 0 < k -> k <= n ->
    nextN doNext pending n st = Done st'.
  Proof.
    induction n; intros k st st' Ha Hp Hk Hle; [lia|].
    destruct k as [|k]; [lia|]. cbn in Ha |- *. unfold next.
    destruct (doNext st) as [s|]; [|discriminate].
    destruct k as [|k].
    - injection Ha as ->. now rewrite Hp.
    - rewrite (after_pending _ _ _ Ha ltac:(lia)). eapply (IHn (S k)); eauto; lia.
  Qed.

  (** state reached after n steps when the final state lies k >= n steps ahead *)
  Lemma after_split k : forall n st fin,
    after k st = Some fin -> n <= k -> exists s, after n st = Some s /\ after (k - n) s = Some fin.
  Proof.
    induction k; intros n st fin Ha Hle.
    - exists st. replace n with 0 by lia. auto.
    - destruct n; [exists st; auto|]. cbn in Ha |- *.
      destruct (doNext st) as [s|]; [|discriminate].
      apply IHk; auto; lia.
  Qed.

  Lemma adapt_positive num i d :
    (0 < num)%N -> (0 < d)%N -> (d <= num * i * 1000000)%N ->
    exists n, adapt num i d = Some n /\ (0 < n)%N.
  Proof.
    intros Hn Hd Hle. unfold adapt. destruct (d =? 0)%N eqn:E; [apply N.eqb_eq in E; lia|].
    eexists; split; [reflexivity|].
    assert (1 <= num * i * 1000000 / d)%N by (apply N.div_le_lower_bound; lia).
    assert (1 <= (num + 2 * (num * i * 1000000 / d)) / 3)%N by (apply N.div_le_lower_bound; lia).
    lia.
  Qed.

  (** [fastEnough]: every round of [num] steps lasts at most [num * interval],
      i.e. at least one step is done per interval *)
  Fixpoint fastRounds (f : nat) (i : N) (d : nat -> N) (j : nat) (num : N) : Prop :=
    match f with
    | 0 => True
    | S f' => (0 < d j)%N /\ (d j <= num * i * 1000000)%N /\
              match adapt num i (d j) with
              | Some num' => fastRounds f' i d (S j) num'
              | None => True
              end
    end.

  Lemma untilLoop_finishes i d c (Hc : forall q, c q = false) fin (Hfin : pending fin = false) :
    forall m f k j num st n,
    n <= m -> after n st = Some fin -> 0 < n -> (0 < num)%N -> m <= f ->
    fastRounds f i d j num ->
    untilLoop doNext pending f c i d k j num st = Done fin.
  Proof.
    induction m; intros f k j num st n Hn Ha Hn0 Hnum Hf Hfast; [lia|].
    destruct f as [|f]; [lia|]. cbn [untilLoop].
    destruct (PeanoNat.Nat.le_gt_cases n (N.to_nat num)) as [Hle|Hgt].
    - rewrite (nextN_Done _ _ _ _ Ha Hfin) by lia. now rewrite Hc.
    - destruct (after_split _ (N.to_nat num) _ _ Ha ltac:(lia)) as (s & Hs & Hr).
      assert (pending s = true) by (eapply after_pending; [exact Hr|lia]).
      rewrite (nextN_More _ _ _ Hs) by auto. rewrite Hc.
      cbn in Hfast. destruct Hfast as (Hd0 & Hd & Hfast).
      destruct (adapt_positive num i (d j) Hnum Hd0 Hd) as (num' & Hadapt & Hpos).
      rewrite Hadapt in *. eapply (IHm f (S k) (S j) num' s (n - N.to_nat num)); eauto; lia.
  Qed.

  Lemma solveUntil_finishes i d c f n st0 fin :
    (forall q, c q = false) -> (0 < i)%N ->
    after n st0 = Some fin -> pending fin = false -> n <= f ->
    fastRounds f i d 0 (i * 500) ->
    solveUntilImpl doNext pending f c i d st0 = Done fin.
  Proof.
    intros Hc Hi Ha Hp Hf Hfast. unfold solveUntilImpl. rewrite Hc. unfold initialize.
    destruct n.
    - injection Ha as ->. now rewrite Hp.
    - rewrite (after_pending _ _ _ Ha ltac:(lia)).
      eapply untilLoop_finishes; eauto; lia.
  Qed.

  Lemma solveImpl_after f st0 fin :
    solveImpl doNext pending f st0 = Done fin ->
    exists n, after n st0 = Some fin /\ pending fin = false.
  Proof.
    intros Hs. pose proof (doStart_traj (SSolve f) st0) as Ht. cbn in Ht. now rewrite Hs in Ht.
  Qed.

  (** a livelock after an initial run of slow rounds *)
  Lemma untilLoop_slow : forall f c i d k j num st,
    (forall q, c q = false) -> (forall q, d q <> 0%N) ->
    forall sched total, 
    (fix go (sched : list N) (num : N) (j : nat) : Prop :=
       match sched with
       | [] => num = 0%N
       | x :: r => num = x /\ match adapt num i (d j) with Some n' => go r n' (S j) | None => False end
       end) sched num j ->
    total = fold_right (fun x a => N.to_nat x + a) 0 sched ->
    (exists s, after total st = Some s /\ pending s = true) ->
    untilLoop doNext pending f c i d k j num st = NoFuel.
  Proof.
    induction f; intros c i d k j num st Hc Hd sched total Hgo Ht (s & Hs & Hp); [reflexivity|].
    destruct sched as [|x r].
    - subst num. now apply untilLoop_livelock.
    - destruct Hgo as [-> Hgo]. cbn [untilLoop]. cbn in Ht.
      destruct (adapt x i (d j)) as [n'|] eqn:E; [|contradiction].
      destruct (after_split _ (N.to_nat x) _ _ Hs ltac:(lia)) as (s1 & Hs1 & Hr).
      assert (pending s1 = true).
      { destruct (total - N.to_nat x) eqn:E0; [injection Hr as ->; auto|].
        eapply after_pending; [exact Hr|lia]. }
      rewrite (nextN_More _ _ _ Hs1) by auto. rewrite Hc.
      try rewrite E. eapply IHf; eauto. exists s. split; auto.
      replace (fold_right (fun x a => N.to_nat x + a) 0 r) with (total - N.to_nat x) by lia. auto.
  Qed.
End P.

(** *** The IDE solver as an instance *)
Section IDE.
  Context {N F D L EF : Type} `{EqDec N} `{EqDec F} `{EqDec D}.
  Variable G : icfg N F.
  Variable P : problem N F D L EF.
  Variable follow : bool.

  (** !WorkList.empty(), IDESolver.h:1755, 1767 *)
  Definition idePending (st : @state N D EF) : bool :=
    match st_wl st with [] => false | _ => true end.

  Notation ideNext := (doNext G P follow).

  Lemma ide_next_defined st : ideNext st <> None <-> idePending st = true.
  Proof.
    unfold doNext, idePending. destruct (st_wl st) as [|[[[? ?] ?] ?] ?]; split; congruence.
  Qed.

  Lemma runPhaseI_solveImpl f : forall st st',
    runPhaseI G P follow f st = Some st' <-> solveImpl ideNext idePending f st = Done st'.
  Proof.
    unfold solveImpl, initialize.
    induction f; intros st st'.
    - cbn. unfold idePending. destruct (st_wl st) eqn:E; split; intros H2; try discriminate;
        injection H2 as <-; congruence.
    - cbn [runPhaseI]. unfold idePending at 1. destruct (st_wl st) eqn:E.
      + split; congruence.
      + cbn [continueImpl]. unfold next.
        assert (ideNext st <> None) as Hd by (apply ide_next_defined; unfold idePending; now rewrite E).
        destruct (ideNext st) as [s|]; [|congruence].
        rewrite IHf. now destruct (idePending s).
  Qed.

  Lemma computeValues_fuel f : forall f' S U J T T',
    computeValues G P f S U J = Some T -> computeValues G P f' S U J = Some T' -> T = T'.
  Proof.
    assert (W : forall f f' S U J v r r',
      runPhaseIIi G P f S U J v = Some r -> runPhaseIIi G P f' S U J v = Some r' -> r = r').
    { clear. induction f; intros f' S U J v r r' H2 H3.
      - cbn in H2. destruct f'; cbn in H3; destruct (v_wl v); try discriminate; congruence.
      - cbn [runPhaseIIi] in H2. destruct f'; cbn [runPhaseIIi] in H3; destruct (v_wl v); try discriminate;
          try congruence.
        destruct (vNext G P S U J v); [|discriminate]. eauto. }
    unfold computeValues. intros f' S U J T T' H2 H3.
    destruct (runPhaseIIi G P f S U J _) eqn:E2; [|discriminate].
    destruct (runPhaseIIi G P f' S U J _) eqn:E3; [|discriminate].
    rewrite (W _ _ _ _ _ _ _ _ E2 E3) in H2. congruence.
  Qed.

  Lemma runPhaseIIi_more f : forall k S U J v r,
    runPhaseIIi G P f S U J v = Some r -> runPhaseIIi G P (f + k) S U J v = Some r.
  Proof.
    induction f; intros k S U J v r H2.
    - cbn in H2. destruct k; cbn; destruct (v_wl v); try discriminate; auto.
    - cbn in *. destruct (v_wl v); auto. destruct (vNext G P S U J v); [|discriminate]. auto.
  Qed.

  Lemma solve_alt f (Sd : seeds) st T :
    solveImpl ideNext idePending f (initState P Sd) = Done st ->
    (exists f2, computeValues G P f2 (addZeroSeeds P Sd) (st_unb st) (st_jf st) = Some T) ->
    exists f', solve G P follow f' Sd = Some (st, T).
  Proof.
    intros H2 [f2 H3].
    destruct (solveImpl_after _ _ _ _ _ H2) as (n & Hn & Hp).
    exists (Nat.max (Nat.max f n) f2).
    unfold solve.
    assert (R : runPhaseI G P follow (Nat.max (Nat.max f n) f2) (initState P Sd) = Some st).
    { apply runPhaseI_solveImpl. eapply solveImpl_Done; eauto. apply ide_next_defined. lia. }
    rewrite R. unfold computeValues in *.
    destruct (runPhaseIIi G P f2 _ _ _ _) eqn:E; [|discriminate].
    apply (runPhaseIIi_more _ (Nat.max (Nat.max f n) f2 - f2)) in E.
    replace (f2 + (Nat.max (Nat.max f n) f2 - f2)) with (Nat.max (Nat.max f n) f2) in E by lia.
    rewrite E. congruence.
  Qed.

  Lemma ide_session_equals_solve s cs (Sd : seeds) st fuel T :
    session ideNext idePending s cs (initState P Sd) = Done st ->
    computeValues G P fuel (addZeroSeeds P Sd) (st_unb st) (st_jf st) = Some T ->
    (exists f, solve G P follow f Sd = Some (st, T)) /\
    (forall f r, solve G P follow f Sd = Some r -> r = (st, T)).
  Proof.
    intros Hs Hc.
    destruct (session_equals_solve _ _ ide_next_defined _ _ _ _ Hs) as [[f Hf] Hu]. split.
    - eapply solve_alt; eauto.
    - intros f' [st' T'] Hr. unfold solve in Hr.
      destruct (runPhaseI G P follow f' (initState P Sd)) as [s'|] eqn:E; [|discriminate].
      destruct (computeValues G P f' _ (st_unb s') _) eqn:E2; [|discriminate].
      injection Hr as -> ->. apply runPhaseI_solveImpl in E. apply Hu in E. subst st'.
      now rewrite (computeValues_fuel _ _ _ _ _ _ _ Hc E2).
  Qed.

  Lemma ide_session_prefix s cs (Sd : seeds) st :
    session ideNext idePending s cs (initState P Sd) = More st ->
    exists k, after ideNext k (initState P Sd) = Some st.
  Proof. eapply session_prefix. Qed.

  Lemma ide_session_resumes s cs (Sd : seeds) st f fin T :
    session ideNext idePending s cs (initState P Sd) = More st -> st_wl st <> [] ->
    solve G P follow f Sd = Some (fin, T) ->
    exists f', continueImpl ideNext idePending f' st = Done fin.
  Proof.
    intros Hs Hp Hr. unfold solve in Hr.
    destruct (runPhaseI G P follow f (initState P Sd)) as [s'|] eqn:E; [|discriminate].
    destruct (computeValues G P f _ (st_unb s') _) eqn:E2; [|discriminate].
    injection Hr as -> ->. apply runPhaseI_solveImpl in E.
    eapply session_resumes; eauto. apply ide_next_defined.
    unfold idePending. now destruct (st_wl st).
  Qed.

  Lemma ide_solveUntil_finishes i d c f0 (Sd : seeds) fin T :
    (forall q, c q = false) -> (0 < i)%N ->
    solve G P follow f0 Sd = Some (fin, T) ->
    exists n, forall f, n <= f -> fastRounds f i d 0 (i * 500) ->
    solveUntilImpl ideNext idePending f c i d (initState P Sd) = Done fin.
  Proof.
    intros Hc Hi Hr. unfold solve in Hr.
    destruct (runPhaseI G P follow f0 (initState P Sd)) as [s'|] eqn:E; [|discriminate].
    destruct (computeValues G P f0 _ (st_unb s') _) eqn:E2; [|discriminate].
    injection Hr as -> ->. apply runPhaseI_solveImpl in E.
    destruct (solveImpl_after _ _ _ _ _ E) as (n & Hn & Hp).
    exists n. intros f1 Hf Hfast. eapply solveUntil_finishes; eauto. apply ide_next_defined.
  Qed.
End IDE.
