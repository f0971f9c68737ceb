(** Proofs about the performance measurements. *)
From Coq Require Import List Bool Arith ZArith Lia.
From Verif Require Import Assoc PAMMModel PAMMSpec.
Import ListNotations.
Local Open Scope Z_scope.

Section Proofs.
  Context {K : Type} {EK : EqDec K}.

  Definition wf (s : pamm K) : Prop := NoDup (akeys (running s)) /\ NoDup (akeys (stopped s)).
  Definition shows (s : pamm K) (id : K) (st : tstate) : Prop :=
    match st with
    | Idle => afind id (running s) = None /\ afind id (stopped s) = None
    | Running t => afind id (running s) = Some t /\ afind id (stopped s) = None
    | Stopped t e => afind id (running s) = None /\ afind id (stopped s) = Some (t, e)
    end.

  Lemma has_true {V} k (l : list (K * V)) : has k l = true <-> exists v, afind k l = Some v.
  Proof. unfold has; destruct (afind k l); split; intros H; eauto; try congruence; destruct H; congruence. Qed.
  Lemma has_false {V} k (l : list (K * V)) : has k l = false <-> afind k l = None.
  Proof. unfold has; destruct (afind k l); split; congruence. Qed.

  Lemma stopLoop_spec dbg now : forall fuel s, wf s -> (length (running s) <= fuel)%nat ->
    exists s', stopLoop dbg fuel now s = Some (Ok s') /\ wf s' /\ running s' = [] /\
      (forall id, afind id (stopped s') =
        match afind id (running s) with Some t => Some (t, now) | None => afind id (stopped s) end) /\
      repeating s' = repeating s /\ counter s' = counter s /\ histogram s' = histogram s.
  Proof.
    induction fuel as [|f IH]; intros [r st rp c hi] [Hr Hs] Hl; simpl in *.
    - destruct r as [|[i t] r]; simpl in *; [|lia]. eexists; repeat split; auto.
    - destruct r as [|[i t] r]; simpl in *; [eexists; repeat split; auto|].
      unfold stopTimer, has; simpl. destruct (eq_dec i i) as [_|n]; [|congruence]. simpl.
      rewrite !andb_false_r. inversion Hr; subst.
      destruct (IH (mkPamm r (aset i (t, now) st) rp c hi)) as (s' & E & W & R & S & F); simpl; [|lia|].
      { split; simpl; auto using NoDup_aset. }
      exists s'. split; [exact E|]. split; [exact W|]. split; [exact R|]. split; [|exact F].
      intros id. rewrite S. simpl. destruct (eq_dec id i); subst.
      + rewrite (proj2 (afind_None i r)) by auto. apply afind_aset_eq.
      + rewrite afind_aset_neq by auto. reflexivity.
  Qed.

  Lemma step_shows dbg o s s' : wf s -> step dbg o s = Some (Ok s') ->
    wf s' /\ forall id st, shows s id st -> shows s' id (tnext id st o).
  Proof.
    intros W E. destruct o as [i t|i|i p t|t|i n|i n|i n|i|i d v]; simpl in E.
    - unfold startTimer in E. destruct (has i (stopped s)) eqn:H1; [congruence|].
      destruct (has i (running s)) eqn:H2; [congruence|]. injection E as <-.
      apply has_false in H1, H2. destruct W as [Wr Ws].
      split; [split; simpl; auto using NoDup_aset|].
      intros id st H. simpl. destruct (eq_dec id i) as [->|N]; simpl.
      + rewrite afind_aset_eq. auto.
      + destruct st; simpl in *; rewrite !afind_aset_neq by auto; exact H.
    - unfold resetTimer in E. destruct (_ && _); [congruence|]. injection E as <-.
      destruct W as [Wr Ws]. split; [split; simpl; auto using NoDup_adel|].
      intros id st H. simpl. destruct (eq_dec id i) as [->|N]; simpl.
      + rewrite !afind_adel_eq by auto. auto.
      + destruct st; simpl in *; rewrite !afind_adel_neq by auto; exact H.
    - unfold stopTimer in E. destruct (_ && _); [congruence|]. destruct (dbg && _); [congruence|].
      destruct (_ || _) eqn:V.
      + destruct (afind i (running s)) as [t0|] eqn:R; [|congruence]. destruct W as [Wr Ws].
        destruct p; injection E as <-.
        * split; [split; simpl; auto using NoDup_adel|].
          intros id st H. destruct st; simpl in *; try (destruct (eq_dec id i) as [->|N]; simpl);
            rewrite ?afind_adel_eq, ?afind_adel_neq by auto; auto; try tauto.
        * split; [split; simpl; auto using NoDup_adel, NoDup_aset|].
          intros id st H. destruct st; simpl in *; try (destruct (eq_dec id i) as [->|N]; simpl);
            rewrite ?afind_adel_eq, ?afind_adel_neq, ?afind_aset_eq, ?afind_aset_neq by auto; auto; try tauto;
            try (destruct H; congruence).
          destruct H; split; congruence.
      + injection E as <-. split; auto. intros id st H.
        apply orb_false_iff in V as [V1 V2]. apply has_false in V1.
        destruct p, st; simpl; auto; destruct (eq_dec id i) as [->|N]; auto;
          destruct H; congruence.
    - destruct (stopLoop_spec dbg t (length (running s)) s W (le_n _)) as (s2 & E2 & W2 & R & S & _).
      rewrite E2 in E. injection E as <-. split; auto. intros id st H.
      destruct st; simpl in *; rewrite R, S; destruct H as [H1 H2]; rewrite H1; auto.
    - unfold regCounter in E. destruct (has i _); [destruct dbg; [congruence|]|]; injection E as <-;
        split; auto; intros id st H; destruct st; exact H.
    - unfold incCounter in E. destruct (afind i _); [|destruct dbg; [congruence|]]; injection E as <-;
        split; auto; intros id st H; destruct st; exact H.
    - unfold decCounter in E. destruct (afind i _); [|destruct dbg; [congruence|]]; injection E as <-;
        split; auto; intros id st H; destruct st; exact H.
    - unfold regHistogram in E. destruct (has i _); [destruct dbg; [congruence|]|]; injection E as <-;
        split; auto; intros id st H; destruct st; exact H.
    - unfold addToHistogram in E. destruct (afind i _); [|destruct dbg; [congruence|]]; injection E as <-;
        split; auto; intros id st H; destruct st; exact H.
  Qed.

  Lemma runFrom_app dbg h1 : forall h2 s s',
    runFrom dbg (h1 ++ h2) s = Some (Ok s') <->
    exists s1, runFrom dbg h1 s = Some (Ok s1) /\ runFrom dbg h2 s1 = Some (Ok s').
  Proof.
    induction h1 as [|o h1 IH]; intros h2 s s'; simpl.
    - split; [eauto|intros (s1 & E & F); congruence].
    - destruct (step dbg o s) as [[s2| |]|]; [apply IH|..]; split; try congruence;
        intros (s1 & E & F); congruence.
  Qed.

  Lemma runFrom_shows dbg h : forall s s', wf s -> runFrom dbg h s = Some (Ok s') ->
    wf s' /\ forall id st, shows s id st -> shows s' id (fold_left (tnext id) h st).
  Proof.
    induction h as [|o h IH]; intros s s' W E; simpl in *; [injection E as <-; auto|].
    destruct (step dbg o s) as [[s2| |]|] eqn:S; try congruence.
    destruct (step_shows _ _ _ _ W S) as [W2 H2]. destruct (IH _ _ W2 E) as [W3 H3]. split; auto.
  Qed.

  Lemma wf_empty : wf empty.
  Proof. split; constructor. Qed.

  Lemma run_shows dbg h s : run dbg h = Some (Ok s) -> wf s /\ forall id, shows s id (timer id h).
  Proof.
    intros E. destruct (runFrom_shows _ _ _ _ wf_empty E) as [W H]. split; auto.
    intros id. apply H. split; reflexivity.
  Qed.

  Lemma elapsed_shows dbg s id st now : shows s id st ->
    elapsedTime dbg id now s =
      match st with
      | Running t => Ok (ms (now - t))
      | Stopped t e => Ok (ms (e - t))
      | Idle => if dbg then Abort else Ok 0
      end.
  Proof. unfold elapsedTime. destruct st; intros [-> H]; rewrite ?H; reflexivity. Qed.

  (** a running timer stays as it is *)
  Lemma run_keeps dbg id t h : forall s s', wf s -> shows s id (Running t) ->
    runFrom dbg h s = Some (Ok s') -> (forall o, In o h -> ~ ends id o) -> shows s' id (Running t).
  Proof.
    induction h as [|o h IH]; intros s s' W H E N; simpl in E; [congruence|].
    destruct (step dbg o s) as [[s2| |]|] eqn:S; try congruence.
    destruct (step_shows _ _ _ _ W S) as [W2 H2]. specialize (H2 id _ H).
    apply (IH s2); auto using in_cons. specialize (N o (or_introl eq_refl)).
    destruct o as [i t'|i|i p t'|t'|i n|i n|i n|i|i d v]; simpl in *; auto; try tauto.
    - destruct (eq_dec id i) as [->|]; auto. unfold startTimer in S.
      destruct H as [H _]. unfold has in S. rewrite H in S. destruct (afind i (stopped s)); congruence.
    - destruct (eq_dec id i); auto. congruence.
    - destruct p; destruct (eq_dec id i); auto; congruence.
  Qed.
  Lemma run_keeps_stopped dbg id t e h : forall s s', wf s -> shows s id (Stopped t e) ->
    runFrom dbg h s = Some (Ok s') -> ~ In (ResetT id) h -> shows s' id (Stopped t e).
  Proof.
    induction h as [|o h IH]; intros s s' W H E N; simpl in E; [congruence|].
    destruct (step dbg o s) as [[s2| |]|] eqn:S; try congruence.
    destruct (step_shows _ _ _ _ W S) as [W2 H2]. specialize (H2 id _ H).
    apply (IH s2); auto; [|intros F; apply N; right; exact F].
    destruct o as [i t'|i|i p t'|t'|i n|i n|i n|i|i d v]; auto.
    - simpl in H2. destruct (eq_dec id i) as [->|]; auto. simpl in S. unfold startTimer in S.
      destruct H as [_ H]. unfold has in S. rewrite H in S. congruence.
    - simpl in H2. destruct (eq_dec id i) as [->|]; auto. destruct N; left; reflexivity.
    - destruct p; exact H2.
  Qed.

  Lemma step_repeating dbg o s s' id st : wf s -> shows s id st -> step dbg o s = Some (Ok s') ->
    afindd [] id (repeating s') = afindd [] id (repeating s) ++
      match o, st with
      | Stop i true e, Running t => if eq_dec id i then [(t, e)] else []
      | _, _ => []
      end.
  Proof.
    intros W H E. destruct o as [i t|i|i p t|t|i n|i n|i n|i|i d v]; simpl in E.
    - unfold startTimer in E. destruct (has i (stopped s)); [congruence|].
      destruct (has i (running s)); [congruence|]. injection E as <-. simpl. now rewrite app_nil_r.
    - unfold resetTimer in E. destruct (_ && _); [congruence|]. injection E as <-. simpl. now rewrite app_nil_r.
    - unfold stopTimer in E. destruct (_ && _); [congruence|]. destruct (dbg && _); [congruence|].
      destruct (_ || _) eqn:V.
      + destruct (afind i (running s)) as [t0|] eqn:R; [|congruence].
        destruct p; injection E as <-; simpl; [|now rewrite app_nil_r].
        unfold afindd at 1. rewrite afind_aset. destruct (eq_dec id i) as [->|N].
        * destruct st; destruct H as [H1 H2]; rewrite R in H1; congruence.
        * fold (afindd [] id (repeating s)). destruct st; now rewrite app_nil_r.
      + injection E as <-. apply orb_false_iff in V as [V1 V2]. apply has_false in V1.
        destruct p, st; try now rewrite app_nil_r.
        destruct (eq_dec id i) as [->|N]; [destruct H; congruence|now rewrite app_nil_r].
    - destruct (stopLoop_spec dbg t (length (running s)) s W (le_n _)) as (s2 & E2 & W2 & R & S & Q & _).
      rewrite E2 in E. injection E as <-. rewrite Q. now rewrite app_nil_r.
    - unfold regCounter in E. destruct (has i _); [destruct dbg; [congruence|]|]; injection E as <-;
        now rewrite app_nil_r.
    - unfold incCounter in E. destruct (afind i _); [|destruct dbg; [congruence|]]; injection E as <-;
        now rewrite app_nil_r.
    - unfold decCounter in E. destruct (afind i _); [|destruct dbg; [congruence|]]; injection E as <-;
        now rewrite app_nil_r.
    - unfold regHistogram in E. destruct (has i _); [destruct dbg; [congruence|]|]; injection E as <-;
        now rewrite app_nil_r.
    - unfold addToHistogram in E. destruct (afind i _); [|destruct dbg; [congruence|]]; injection E as <-;
        now rewrite app_nil_r.
  Qed.
  Lemma run_repeating dbg id h : forall s s' st, wf s -> shows s id st ->
    runFrom dbg h s = Some (Ok s') ->
    afindd [] id (repeating s') = afindd [] id (repeating s) ++ pauses id st h.
  Proof.
    induction h as [|o h IH]; intros s s' st W H E; cbn [runFrom pauses] in *;
      [injection E as <-; now rewrite app_nil_r|].
    destruct (step dbg o s) as [[s2| |]|] eqn:S; try congruence.
    destruct (step_shows _ _ _ _ W S) as [W2 H2].
    rewrite (IH _ _ _ W2 (H2 _ _ H) E), (step_repeating _ _ _ _ _ _ W H S). now rewrite app_assoc.
  Qed.

  Lemma afindd_map {V W} (f : V -> W) (d : V) (k : K) (l : list (K * V)) :
    afindd (f d) k (map (fun p => (fst p, f (snd p))) l) = f (afindd d k l).
  Proof.
    unfold afindd. induction l as [|[k' v] l IH]; simpl; auto. destruct (eq_dec k k'); auto.
  Qed.

  (** * counters *)
  Lemma u32_add a b : u32 (u32 a + u32 b) = u32 (a + b).
  Proof. unfold u32. symmetry. apply Zplus_mod. Qed.
  Lemma u32_sub a b : u32 (u32 a - u32 b) = u32 (a - b).
  Proof. unfold u32. symmetry. apply Zminus_mod. Qed.
  Lemma u64_add a b : u64 (u64 a + u64 b) = u64 (a + b).
  Proof. unfold u64. symmetry. apply Zplus_mod. Qed.

  (** the counter and histogram of a state do not depend on timers *)
  Lemma step_counter_other dbg o s s' id : wf s -> step dbg o s = Some (Ok s') ->
    (forall c, afind id (counter s) = Some (u32 c) ->
       afind id (counter s') = Some (u32 (c + added id [o]))) /\
    (afind id (counter s) = None -> ~ registers id o -> afind id (counter s') = None) /\
    (forall n, afind id (counter s) = None -> o = Reg id n -> afind id (counter s') = Some (u32 n)).
  Proof.
    intros W E.
    assert (Same : counter s' = counter s -> added id [o] = 0 -> (forall n, o <> Reg id n) ->
      (forall c, afind id (counter s) = Some (u32 c) -> afind id (counter s') = Some (u32 (c + added id [o]))) /\
      (afind id (counter s) = None -> ~ registers id o -> afind id (counter s') = None) /\
      (forall n, afind id (counter s) = None -> o = Reg id n -> afind id (counter s') = Some (u32 n))).
    { intros -> -> N. split; [intros c H; now rewrite Z.add_0_r|]. split; auto.
      intros n H F. destruct (N n F). }
    destruct o as [i t|i|i p t|t|i n|i n|i n|i|i d v]; simpl in E.
    - apply Same; try congruence; try reflexivity. unfold startTimer in E. destruct (has i (stopped s)); [congruence|].
      destruct (has i (running s)); [congruence|]. injection E as <-. reflexivity.
    - apply Same; try congruence; try reflexivity. unfold resetTimer in E. destruct (_ && _); [congruence|]. injection E as <-. reflexivity.
    - apply Same; try congruence; try reflexivity. unfold stopTimer in E.
      destruct (_ && _); [congruence|]. destruct (dbg && _); [congruence|].
      destruct (_ || _); [destruct (afind i (running s)); [destruct p|congruence]|]; injection E as <-; reflexivity.
    - apply Same; try congruence; try reflexivity.
      destruct (stopLoop_spec dbg t (length (running s)) s W (le_n _)) as (s2 & E2 & W2 & R & S & Q & C & _).
      rewrite E2 in E. injection E as <-. exact C.
    - clear Same. unfold regCounter in E. destruct (has i (counter s)) eqn:H.
      + destruct dbg; [congruence|]. injection E as <-.
        split; [intros c Hc; simpl; now rewrite Z.add_0_r|]. split; auto.
        intros m N F. injection F as -> ->. apply has_false in N. congruence.
      + injection E as <-. apply has_false in H. simpl. rewrite !afind_aset.
        destruct (eq_dec id i) as [->|N].
        * split; [congruence|]. split; [intros _ F; destruct F; exists n; reflexivity|].
          intros m _ F. injection F as ->. reflexivity.
        * split; [intros c Hc; now rewrite Z.add_0_r|]. split; auto. intros m _ F. congruence.
    - clear Same. unfold incCounter in E. destruct (afind i (counter s)) as [c0|] eqn:H.
      + injection E as <-. simpl. rewrite afind_aset. destruct (eq_dec id i) as [->|N].
        * split; [|split; congruence]. intros c Hc. rewrite H in Hc. injection Hc as ->.
          now rewrite u32_add, Z.add_0_r.
        * split; [intros c Hc; now rewrite Z.add_0_r|]. split; auto; congruence.
      + destruct dbg; [congruence|]. injection E as <-. simpl. split; [|split; [auto|congruence]].
        intros c Hc. destruct (eq_dec id i) as [->|N]; [congruence|now rewrite Z.add_0_r].
    - clear Same. unfold decCounter in E. destruct (afind i (counter s)) as [c0|] eqn:H.
      + injection E as <-. simpl. rewrite afind_aset. destruct (eq_dec id i) as [->|N].
        * split; [|split; congruence]. intros c Hc. rewrite H in Hc. injection Hc as ->.
          rewrite u32_sub. do 2 f_equal. lia.
        * split; [intros c Hc; now rewrite Z.add_0_r|]. split; auto; congruence.
      + destruct dbg; [congruence|]. injection E as <-. simpl. split; [|split; [auto|congruence]].
        intros c Hc. destruct (eq_dec id i) as [->|N]; [congruence|now rewrite Z.add_0_r].
    - apply Same; try congruence; try reflexivity. unfold regHistogram in E.
      destruct (has i _); [destruct dbg; [congruence|]|]; injection E as <-; reflexivity.
    - apply Same; try congruence; try reflexivity. unfold addToHistogram in E.
      destruct (afind i _); [|destruct dbg; [congruence|]]; injection E as <-; reflexivity.
  Qed.

  Lemma added_cons id o h : added id (o :: h) = added id [o] + added id h.
  Proof. destruct o; simpl; lia. Qed.

  Lemma run_counter dbg id h : forall s s' c, wf s -> runFrom dbg h s = Some (Ok s') ->
    afind id (counter s) = Some (u32 c) -> afind id (counter s') = Some (u32 (c + added id h)).
  Proof.
    induction h as [|o h IH]; intros s s' c W E H; cbn [runFrom] in E.
    - injection E as <-. simpl. now rewrite Z.add_0_r.
    - destruct (step dbg o s) as [[s2| |]|] eqn:S; try congruence.
      destruct (step_shows _ _ _ _ W S) as [W2 _].
      destruct (step_counter_other _ _ _ _ id W S) as [A _].
      rewrite (IH _ _ _ W2 E (A _ H)). rewrite (added_cons id o h). do 2 f_equal. lia.
  Qed.
  Lemma run_counter_none dbg id h : forall s s', wf s -> runFrom dbg h s = Some (Ok s') ->
    afind id (counter s) = None -> (forall o, In o h -> ~ registers id o) -> afind id (counter s') = None.
  Proof.
    induction h as [|o h IH]; intros s s' W E H N; cbn [runFrom] in E; [congruence|].
    destruct (step dbg o s) as [[s2| |]|] eqn:S; try congruence.
    destruct (step_shows _ _ _ _ W S) as [W2 _].
    destruct (step_counter_other _ _ _ _ id W S) as (_ & B & _).
    apply (IH s2); auto using in_cons. apply B; auto. apply N. left; reflexivity.
  Qed.
  Lemma run_counts dbg id n h2 h s : run dbg h = Some (Ok s) -> counts id n h2 h ->
    afind id (counter s) = Some (u32 (n + added id h2)).
  Proof.
    intros E (h1 & -> & N). apply runFrom_app in E as (s1 & E1 & E2). cbn [runFrom] in E2.
    destruct (runFrom_shows _ _ _ _ wf_empty E1) as [W1 _].
    destruct (step dbg (Reg id n) s1) as [[s2| |]|] eqn:S; try congruence.
    destruct (step_shows _ _ _ _ W1 S) as [W2 _].
    destruct (step_counter_other _ _ _ _ id W1 S) as (_ & _ & C).
    refine (run_counter dbg id h2 s2 s n W2 E2 (C n _ eq_refl)).
    exact (run_counter_none dbg id h1 empty s1 wf_empty E1 eq_refl N).
  Qed.

  Lemma u64_small z : 0 <= z < 2 ^ 64 -> u64 z = z.
  Proof. apply Z.mod_small. Qed.
  Lemma u32_range z : 0 <= u32 z < 2 ^ 32.
  Proof. apply Z.mod_pos_bound. reflexivity. Qed.

  Lemma sumFrom_spec dbg s (f : K -> Z) : forall ids ctr,
    (forall id, In id ids -> afind id (counter s) = Some (f id) /\ 0 <= f id < 2 ^ 32) ->
    0 <= ctr -> ctr + 2 ^ 32 * Z.of_nat (length ids) < 2 ^ 64 ->
    sumFrom dbg ctr ids s = Ok (Some (ctr + sumZ (map f ids))).
  Proof.
    induction ids as [|i ids IH]; intros ctr H C B; cbn [sumFrom].
    - simpl. now rewrite Z.add_0_r.
    - destruct (H i (or_introl eq_refl)) as [F R]. unfold getCounter. rewrite F.
      replace (length (i :: ids)) with (S (length ids)) in B by reflexivity. rewrite Nat2Z.inj_succ in B.
      rewrite u64_small by lia. rewrite IH; [|intros; apply H; right; auto|lia|lia].
      change (sumZ (map f (i :: ids))) with (f i + sumZ (map f ids)). now rewrite Z.add_assoc.
  Qed.
  Lemma sumFrom_none s : forall ids ctr id, In id ids -> afind id (counter s) = None ->
    sumFrom false ctr ids s = Ok None.
  Proof.
    induction ids as [|i ids IH]; intros ctr id Hin H; [destruct Hin|]. cbn [sumFrom].
    unfold getCounter. destruct Hin as [->|Hin]; [now rewrite H|].
    destruct (afind i (counter s)); [eauto|reflexivity].
  Qed.

  (** * histograms *)
  Definition hist (s : pamm K) (id dp : K) : option (option Z) :=
    option_map (afind dp) (afind id (histogram s)).

  Lemma step_hist dbg o s s' id dp : wf s -> step dbg o s = Some (Ok s') ->
    (forall x, hist s id dp = Some (option_map u64 x) ->
      hist s' id dp = Some (option_map u64 (match x, points id dp [o] with
                                            | _, [] => x
                                            | None, v :: _ => Some v
                                            | Some a, v :: _ => Some (a + v) end))) /\
    (afind id (histogram s) = None -> o <> RegHist id -> afind id (histogram s') = None) /\
    (afind id (histogram s) = None -> o = RegHist id -> hist s' id dp = Some None).
  Proof.
    intros W E.
    assert (Same : histogram s' = histogram s -> points id dp [o] = [] -> o <> RegHist id ->
      (forall x, hist s id dp = Some (option_map u64 x) ->
      hist s' id dp = Some (option_map u64 (match x, points id dp [o] with
                                            | _, [] => x
                                            | None, v :: _ => Some v
                                            | Some a, v :: _ => Some (a + v) end))) /\
      (afind id (histogram s) = None -> o <> RegHist id -> afind id (histogram s') = None) /\
      (afind id (histogram s) = None -> o = RegHist id -> hist s' id dp = Some None)).
    { unfold hist. intros -> -> N. split; [intros [a|] H; exact H|]. split; [auto|congruence]. }
    destruct o as [i t|i|i p t|t|i n|i n|i n|i|i d v]; simpl in E.
    - apply Same; try congruence; try reflexivity. unfold startTimer in E. destruct (has i (stopped s)); [congruence|].
      destruct (has i (running s)); [congruence|]. injection E as <-. reflexivity.
    - apply Same; try congruence; try reflexivity. unfold resetTimer in E. destruct (_ && _); [congruence|]. injection E as <-. reflexivity.
    - apply Same; try congruence; try reflexivity. unfold stopTimer in E.
      destruct (_ && _); [congruence|]. destruct (dbg && _); [congruence|].
      destruct (_ || _); [destruct (afind i (running s)); [destruct p|congruence]|]; injection E as <-; reflexivity.
    - apply Same; try congruence; try reflexivity.
      destruct (stopLoop_spec dbg t (length (running s)) s W (le_n _)) as (s2 & E2 & W2 & R & S & Q & C & Hh).
      rewrite E2 in E. injection E as <-. exact Hh.
    - apply Same; try congruence; try reflexivity. unfold regCounter in E.
      destruct (has i _); [destruct dbg; [congruence|]|]; injection E as <-; reflexivity.
    - apply Same; try congruence; try reflexivity. unfold incCounter in E.
      destruct (afind i _); [|destruct dbg; [congruence|]]; injection E as <-; reflexivity.
    - apply Same; try congruence; try reflexivity. unfold decCounter in E.
      destruct (afind i _); [|destruct dbg; [congruence|]]; injection E as <-; reflexivity.
    - clear Same. unfold regHistogram in E. unfold hist. destruct (has i (histogram s)) eqn:H.
      + destruct dbg; [congruence|]. injection E as <-. split; [intros [a|] Hx; exact Hx|]. split; auto.
        intros N F. injection F as ->. apply has_false in N. congruence.
      + injection E as <-. apply has_false in H. simpl. rewrite afind_aset.
        destruct (eq_dec id i) as [->|N].
        * split; [intros x Hx; rewrite H in Hx; discriminate|]. split; [congruence|reflexivity].
        * split; [intros [a|] Hx; exact Hx|]. split; [auto|congruence].
    - clear Same. unfold addToHistogram in E. unfold hist. destruct (afind i (histogram s)) as [hh|] eqn:H.
      + injection E as <-. simpl. rewrite afind_aset. destruct (eq_dec id i) as [->|N].
        * split; [|split; congruence]. intros x Hx. rewrite H in Hx. simpl in Hx. injection Hx as Hx.
          simpl. f_equal. destruct (eq_dec dp d) as [->|N]; simpl.
          -- rewrite Hx. destruct x; simpl; rewrite afind_aset_eq; [now rewrite u64_add|reflexivity].
          -- destruct (afind d hh); rewrite afind_aset_neq by auto; destruct x; exact Hx.
        * simpl. split; [intros [a|] Hx; exact Hx|]. split; [auto|congruence].
      + destruct dbg; [congruence|]. injection E as <-. simpl. split; [|split; [auto|congruence]].
        intros x Hx. destruct (eq_dec id i) as [->|N]; [rewrite H in Hx; discriminate|destruct x; exact Hx].
  Qed.

  Lemma points_cons id dp o h : points id dp (o :: h) = points id dp [o] ++ points id dp h.
  Proof. destruct o; simpl; auto. now rewrite app_nil_r. Qed.
  Lemma points_one id dp (o : op K) : points id dp [o] = [] \/ exists v, points id dp [o] = [v].
  Proof.
    destruct o as [i t|i|i p t|t|i n|i n|i n|i|i d v]; simpl; auto.
    destruct (eq_dec id i); auto. destruct (eq_dec dp d); auto. right. exists v. reflexivity.
  Qed.

  Definition plus_raw (x : option Z) (l : list Z) : option Z :=
    match x, l with
    | None, [] => None
    | None, _ => Some (sumZ l)
    | Some a, _ => Some (a + sumZ l)
    end.

  Lemma run_hist dbg id dp h : forall s s' x, wf s -> runFrom dbg h s = Some (Ok s') ->
    hist s id dp = Some (option_map u64 x) ->
    hist s' id dp = Some (option_map u64 (plus_raw x (points id dp h))).
  Proof.
    induction h as [|o h IH]; intros s s' x W E H; cbn [runFrom] in E.
    - injection E as <-. rewrite H. destruct x as [a|]; simpl; [now rewrite Z.add_0_r|reflexivity].
    - destruct (step dbg o s) as [[s2| |]|] eqn:S; try congruence.
      destruct (step_shows _ _ _ _ W S) as [W2 _].
      destruct (step_hist _ _ _ _ id dp W S) as [A _].
      rewrite (IH _ _ _ W2 E (A _ H)), (points_cons id dp o h).
      destruct (points_one id dp o) as [->|[v ->]]; destruct x as [a|]; simpl; auto.
      now rewrite Z.add_assoc.
  Qed.
  Lemma run_hist_none dbg id h : forall s s', wf s -> runFrom dbg h s = Some (Ok s') ->
    afind id (histogram s) = None -> ~ In (RegHist id) h -> afind id (histogram s') = None.
  Proof.
    induction h as [|o h IH]; intros s s' W E H N; cbn [runFrom] in E; [congruence|].
    destruct (step dbg o s) as [[s2| |]|] eqn:S; try congruence.
    destruct (step_shows _ _ _ _ W S) as [W2 _].
    destruct (step_hist _ _ _ _ id id W S) as (_ & B & _).
    apply (IH s2); auto; [|intros F; apply N; right; exact F].
    apply B; auto. intros ->. apply N. left; reflexivity.
  Qed.
  Lemma run_collects dbg id dp h2 h s : run dbg h = Some (Ok s) -> collects id h2 h ->
    hist s id dp = Some (match points id dp h2 with [] => None | l => Some (u64 (sumZ l)) end).
  Proof.
    intros E (h1 & -> & N). apply runFrom_app in E as (s1 & E1 & E2). cbn [runFrom] in E2.
    destruct (runFrom_shows _ _ _ _ wf_empty E1) as [W1 _].
    destruct (step dbg (RegHist id) s1) as [[s2| |]|] eqn:S; try congruence.
    destruct (step_shows _ _ _ _ W1 S) as [W2 _].
    destruct (step_hist _ _ _ _ id dp W1 S) as (_ & _ & C).
    rewrite (run_hist _ _ _ _ _ _ None W2 E2).
    - destruct (points id dp h2); reflexivity.
    - apply C; auto. exact (run_hist_none dbg id h1 empty s1 wf_empty E1 eq_refl N).
  Qed.

  (** * asserts *)
  Lemma stopTimer_debug id p t s s' : stopTimer true id p t s = Ok s' -> stopTimer false id p t s = Ok s'.
  Proof. unfold stopTimer. simpl. destruct (negb _); [congruence|]. destruct (negb _); congruence. Qed.
  Lemma stopLoop_debug t fuel : forall s s', stopLoop true fuel t s = Some (Ok s') ->
    stopLoop false fuel t s = Some (Ok s').
  Proof.
    induction fuel as [|f IH]; intros s s' E; simpl in *; destruct (running s) as [|[i u] r]; auto; try congruence.
    destruct (stopTimer true i false t s) as [s2| |] eqn:S; try congruence.
    rewrite (stopTimer_debug _ _ _ _ _ S). auto.
  Qed.
  Lemma step_debug o s s' : step true o s = Some (Ok s') -> step false o s = Some (Ok s').
  Proof.
    destruct o as [i t|i|i p t|t|i n|i n|i n|i|i d v]; cbn [step]; auto using stopLoop_debug.
    - unfold resetTimer. simpl. destruct (eqb _ _); congruence.
    - intros E. injection E as E. now rewrite (stopTimer_debug _ _ _ _ _ E).
    - unfold regCounter. destruct (has _ _); congruence.
    - unfold incCounter. destruct (afind _ _); congruence.
    - unfold decCounter. destruct (afind _ _); congruence.
    - unfold regHistogram. destruct (has _ _); congruence.
    - unfold addToHistogram. destruct (afind _ _); congruence.
  Qed.
  Lemma step_no_ub o s : wf s -> step true o s <> Some UB.
  Proof.
    intros W. destruct o as [i t|i|i p t|t|i n|i n|i n|i|i d v]; cbn [step].
    - unfold startTimer. destruct (has _ _); [|destruct (has _ _)]; congruence.
    - unfold resetTimer. destruct (_ && _); congruence.
    - unfold stopTimer, has. destruct (afind i (running s)); simpl; [destruct p; congruence|].
      destruct (negb _); congruence.
    - destruct (stopLoop_spec true t _ s W (le_n _)) as (s' & -> & _). congruence.
    - unfold regCounter. destruct (has _ _); congruence.
    - unfold incCounter. destruct (afind _ _); congruence.
    - unfold decCounter. destruct (afind _ _); congruence.
    - unfold regHistogram. destruct (has _ _); congruence.
    - unfold addToHistogram. destruct (afind _ _); congruence.
  Qed.
  Lemma step_fuel dbg o s : wf s -> step dbg o s <> None.
  Proof.
    intros W. destruct o; cbn [step]; try congruence.
    destruct (stopLoop_spec dbg now _ s W (le_n _)) as (s' & -> & _). congruence.
  Qed.
  Lemma runFrom_debug h : forall s, wf s ->
    runFrom true h s <> Some UB /\ (forall s', runFrom true h s = Some (Ok s') -> runFrom false h s = Some (Ok s')).
  Proof.
    induction h as [|o h IH]; intros s W; cbn [runFrom]; [split; congruence|].
    destruct (step true o s) as [[s2| |]|] eqn:S; try (split; congruence).
    - rewrite (step_debug _ _ _ S). apply IH. apply (step_shows _ _ _ _ W S).
    - destruct (step_no_ub o s W S).
  Qed.
  Lemma runFrom_fuel dbg h : forall s, wf s -> runFrom dbg h s <> None.
  Proof.
    induction h as [|o h IH]; intros s W; cbn [runFrom]; [congruence|].
    destruct (step dbg o s) as [[s2| |]|] eqn:S; try congruence.
    - apply IH. apply (step_shows _ _ _ _ W S).
    - destruct (step_fuel dbg o s W S).
  Qed.
End Proofs.

Lemma quot_parts ns d : 0 <= ns -> 0 < d ->
  0 <= Z.quot ns d /\ 0 <= ns - Z.quot ns d * d < d.
Proof.
  intros H D. split; [apply Z.quot_pos; lia|].
  pose proof (Z.quot_rem' ns d). pose proof (Z.rem_bound_pos ns d H D). lia.
Qed.
