(** C25: the intra-procedural monotone solver. *)
From Coq Require Import List Bool Arith Lia.
From Verif Require Import Assoc IntraMonoModel IntraMonoSpec IntraMonoProofs.
Import ListNotations.

Lemma solve_inv {Nd M F} `{EqDec Nd} (c : cfg Nd F) (P : problem Nd M F) fuel R : solve c P fuel = Some R ->
  exists A, loop c P fuel (initialize c P) = Some A /\ R = map (fun e => (fst e, normalFlow P (fst e) (snd e))) A.
Proof. unfold solve. destruct (loop c P fuel (initialize c P)) as [A|]; [|discriminate]. intros [= <-]. eauto. Qed.

(** The result satisfies the data-flow equations: after [n] holds the flow of
    what holds before it, and that is the join over the predecessors, or the
    start value where there are none. *)
Theorem C25_result_satisfies_the_equations : forall {Nd M F} `{EqDec Nd} (c : cfg Nd F) (P : problem Nd M F) le fuel R,
  monotone P le -> graph c P -> predsExact c P -> entrySeeds c P -> solve c P fuel = Some R ->
  exists before : Nd -> M, forall n, inV c P n ->
    getResultsAt P n R = normalFlow P n (before n) /\
    (preds c n <> [] -> isLub le (fun y => exists p, In p (preds c n) /\ y = getResultsAt P p R) (before n)) /\
    (preds c n = [] -> starts c P n (before n)).
Proof.
  intros Nd M F E c P le fuel R Mo Gr Pe Es Hs. apply solve_inv in Hs as (A & Hl & ->).
  destruct (final c P le Mo Gr fuel A Es Hl) as (Cov & Asc & Pr & Fix & _).
  assert (Hr : forall n, inV c P n -> getResultsAt P n (map (fun e => (fst e, normalFlow P (fst e) (snd e))) A) = outOf P A n).
  { intros n Vn. apply results_get. now apply Pr. }
  exists (fun n => get P n A). intros n Vn. split; [now apply Hr|]. split; [|auto].
  intros Hp. split.
  - intros y (p & Hin & ->). pose proof (preds_closed _ _ Gr n p Vn Hin) as Vp. rewrite Hr by auto.
    destruct (Cov p n Vp (Pe p n Vn Hin)) as [[]|]; auto.
  - intros u Hu. apply (Asc n Vn Hp). intros p Hin. rewrite <- Hr by exact (preds_closed _ _ Gr n p Vn Hin). eauto.
Qed.
Print Assumptions C25_result_satisfies_the_equations.

(** The result is above the value of every path. *)
Theorem C25_result_is_above_all_paths : forall {Nd M F} `{EqDec Nd} (c : cfg Nd F) (P : problem Nd M F) le fuel R n x,
  monotone P le -> graph c P -> entrySeeds c P -> solve c P fuel = Some R ->
  flows c P n x -> le (normalFlow P n x) (getResultsAt P n R).
Proof.
  intros Nd M F E c P le fuel R n x Mo Gr Es Hs Hf. apply solve_inv in Hs as (A & Hl & ->).
  destruct (flows_below c P le Mo Gr fuel A n x Es Hl Hf) as [Vn Hle].
  destruct (final c P le Mo Gr fuel A Es Hl) as (_ & _ & Pr & _). unfold getResultsAt.
  rewrite results_get by now apply Pr. now apply (flow_mono _ _ Mo).
Qed.
Print Assumptions C25_result_is_above_all_paths.

(** It is the least solution. *)
Theorem C25_result_is_the_least_solution : forall {Nd M F} `{EqDec Nd} (c : cfg Nd F) (P : problem Nd M F) le fuel R,
  monotone P le -> graph c P -> predsExact c P -> entrySeeds c P -> solve c P fuel = Some R ->
  forall X, solution c P le X -> forall n, inV c P n -> le (getResultsAt P n R) (normalFlow P n (X n)).
Proof.
  intros Nd M F E c P le fuel R Mo Gr Pe Es Hs X [X1 X2] n Vn. apply solve_inv in Hs as (A & Hl & ->).
  destruct (final c P le Mo Gr fuel A Es Hl) as (_ & _ & Pr & _ & Bel & _). unfold getResultsAt.
  rewrite results_get by now apply Pr. apply (flow_mono _ _ Mo). apply Bel; auto.
  intros a m Vm Ha. apply X2; auto. exact (preds_closed _ _ Gr m a Vm Ha).
Qed.
Print Assumptions C25_result_is_the_least_solution.

(** For distributive problems it is the join over all paths: no more than what
    the paths bring. *)
Theorem C25_distributive_result_is_the_join_over_paths : forall {Nd M F} `{EqDec Nd} (c : cfg Nd F) (P : problem Nd M F) le fuel R,
  monotone P le -> distributive P le -> graph c P -> predsExact c P -> entrySeeds c P -> solve c P fuel = Some R ->
  forall n, inV c P n -> isLub le (fun y => exists x, flows c P n x /\ y = normalFlow P n x) (getResultsAt P n R).
Proof.
  intros Nd M F E c P le fuel R Mo D Gr Pe Es Hs n Vn. split.
  - intros y (x & Hf & ->). eapply C25_result_is_above_all_paths; eauto.
  - intros u Hu. apply solve_inv in Hs as (A & Hl & ->).
    destruct (final c P le Mo Gr fuel A Es Hl) as (_ & _ & Pr & _ & _ & J). unfold getResultsAt.
    rewrite results_get by now apply Pr. apply (joined_out c P le Mo); auto.
    + now apply J.
    + intros y Hy. apply Hu. eauto.
Qed.
Print Assumptions C25_distributive_result_is_the_join_over_paths.

(** With finite height the solver ends.  [ok] is the part of the container type
    that can occur (for example the subsets of a finite set), [rank] bounds the
    length of its ascending chains. *)
Theorem C25_terminates : forall {Nd M F} `{EqDec Nd} (c : cfg Nd F) (P : problem Nd M F) le (ok : M -> Prop) (rank : M -> nat) top,
  monotone P le -> graph c P -> entrySeeds c P ->
  (forall n x, ok x -> ok (normalFlow P n x)) -> (forall x y, ok x -> ok y -> ok (merge P x y)) ->
  (forall n x, starts c P n x -> ok x) ->
  (forall x, ok x -> rank x <= top) -> (forall x y, ok x -> ok y -> le x y -> ~ le y x -> rank x < rank y) ->
  exists fuel R, forall k, fuel <= k -> solve c P k = Some R.
Proof.
  intros Nd M F E c P le ok rank top Mo Gr Es O1 O2 O3 R1 R2.
  destruct (init_terminates c P le Mo Gr ok rank top O1 O2 O3 R1 R2 Es) as (fuel & A & Hf).
  exists fuel, (map (fun e => (fst e, normalFlow P (fst e) (snd e))) A). intros k Hk. unfold solve. now rewrite Hf.
Qed.
Print Assumptions C25_terminates.

(** ** Gen/kill problems over finite sets, as lists *)
Definition subset (x y : list nat) : bool := forallb (fun a => mem a y) x.
Definition genkill (gen : nat -> list nat) (kill : nat -> nat -> bool) (seeds : list (nat * list nat)) (entries : list nat)
  : problem nat (list nat) nat :=
  mkProblem (fun n x => gen n ++ filter (fun a => negb (kill n a)) x) (@app nat)
    (fun x y => subset x y && subset y x) [] [] (@app nat) seeds entries.

Lemma subset_ok x y : subset x y = true <-> incl x y.
Proof. unfold subset. rewrite forallb_forall. split; intros Hs a Ha; [now apply mem_true, Hs|now apply mem_true, Hs]. Qed.
Lemma genkill_monotone gen kill seeds entries : monotone (genkill gen kill seeds entries) (@incl nat).
Proof.
  constructor; cbn.
  - apply incl_refl.
  - intros x y z. apply incl_tran.
  - intros x y. apply incl_appl, incl_refl.
  - intros x y. apply incl_appr, incl_refl.
  - intros x y u. apply incl_app.
  - intros x y. rewrite andb_true_iff, !subset_ok. tauto.
  - intros x a [].
  - intros n x y Hxy a Ha. apply in_app_iff in Ha as [Ha|Ha]; apply in_or_app; auto. right.
    apply filter_In in Ha as [A B]. apply filter_In. auto.
Qed.
Lemma genkill_distributive gen kill seeds entries : distributive (genkill gen kill seeds entries) (@incl nat).
Proof.
  intros n x y a. cbn. rewrite filter_app. intros Ha. rewrite !in_app_iff in *. tauto.
Qed.
Lemma nodup_lt (x y : list nat) : incl x y -> ~ incl y x -> length (nodup Nat.eq_dec x) < length (nodup Nat.eq_dec y).
Proof.
  intros A B. destruct (le_lt_dec (length (nodup Nat.eq_dec y)) (length (nodup Nat.eq_dec x))) as [L|]; auto.
  exfalso. apply B. intros a Ha.
  assert (I : incl (nodup Nat.eq_dec y) (nodup Nat.eq_dec x)).
  { apply NoDup_length_incl; [apply NoDup_nodup|auto|]. intros b Hb. rewrite nodup_In in *. auto. }
  specialize (I a). rewrite !nodup_In in I. auto.
Qed.
(** Gen/kill problems over a finite set of facts always end. *)
Theorem C25_genkill_terminates : forall (c : cfg nat nat) gen kill seeds entries (universe : list nat),
  let P := genkill gen kill seeds entries in
  graph c P -> entrySeeds c P -> (forall n, incl (gen n) universe) -> (forall n x, In (n, x) seeds -> incl x universe) ->
  exists fuel R, forall k, fuel <= k -> solve c P k = Some R.
Proof.
  intros c gen kill seeds entries universe P Gr Es Hg Hs.
  apply (C25_terminates c P (@incl nat) (fun x => incl x universe) (fun x => length (nodup Nat.eq_dec x)) (length (nodup Nat.eq_dec universe))); auto.
  - apply genkill_monotone.
  - intros n x Hx a Ha. cbn in Ha. apply in_app_iff in Ha as [Ha|Ha]; [eapply Hg; eauto|]. apply filter_In in Ha as [Ha _]. auto.
  - intros x y Hx Hy. now apply incl_app.
  - intros n x [(f & Hf & ->)|(_ & _ & ->)]; cbn; [eapply Hs; eauto|intros a []].
  - intros x Hx. apply NoDup_incl_length; [apply NoDup_nodup|]. intros a Ha. rewrite nodup_In in *. auto.
  - intros x y _ _. apply nodup_lt.
Qed.
Print Assumptions C25_genkill_terminates.

(** A loop 0 -> 1 -> 2 -> 1, 1 -> 3; 2 generates fact 7 and kills fact 5, the
    seed of node 0. *)
Definition exC : cfg nat nat :=
  mkCfg (fun _ => [0; 1; 2; 3]) (fun _ => [0; 1; 2; 3])
    (fun n => match n with 0 => [1] | 1 => [2; 3] | 2 => [1] | _ => [] end)
    (fun n => match n with 1 => [0; 2] | 2 => [1] | 3 => [1] | _ => [] end)
    (fun s d => true).
Definition exP : problem nat (list nat) nat :=
  genkill (fun n => match n with 2 => [7] | _ => [] end) (fun n a => (n =? 2) && (a =? 5)) [(0, [5])] [0].
Lemma exV n : inV exC exP n <-> n < 4.
Proof.
  unfold inV. cbn. split; [intros (f & _ & Hn); lia|]. intros Hn. exists 0. split; auto. lia.
Qed.
Example C25_ex_graph : graph exC exP /\ predsExact exC exP /\ entrySeeds exC exP.
Proof.
  split; [|split].
  - constructor.
    + intros f n _ Hn. exact Hn.
    + intros n m Hn Hm. apply exV in Hn. apply exV. destruct n as [|[|[|[|n]]]]; cbn in Hm; lia.
    + intros n m Hn Hm. apply exV in Hn. apply exV. destruct n as [|[|[|[|n]]]]; cbn in Hm; lia.
    + intros n m Hn Hm. apply exV in Hn. destruct n as [|[|[|[|n]]]]; cbn in Hm; [| | | |lia]; repeat destruct Hm as [<-|Hm]; cbn; auto; contradiction.
    + intros s d p _ _ Hb. discriminate.
  - intros n m Hm Hn. apply exV in Hm. destruct m as [|[|[|[|m]]]]; cbn in Hn; [| | | |lia]; repeat destruct Hn as [<-|Hn]; cbn; auto; contradiction.
  - split; [repeat constructor; cbn; tauto|]. intros n x [Heq|[]]. injection Heq as <- <-. split; [apply exV; lia|reflexivity].
Qed.
Example C25_ex_result : exists R, solve exC exP 20 = Some R /\ getResultsAt exP 3 R = [5; 7] /\ subset (getResultsAt exP 2 R) [7] = true.
Proof. eexists. split; [vm_compute; reflexivity|]. split; vm_compute; reflexivity. Qed.
Example C25_ex_flows : flows exC exP 3 [7].
Proof.
  change [7] with (normalFlow exP 1 (normalFlow exP 2 (normalFlow exP 1 (normalFlow exP 0 [5])))).
  do 4 (apply flows_step; [|cbn; auto]). apply flows_start. left. exists [5]. cbn. auto.
Qed.

(** ** What goes wrong outside these hypotheses *)

(** A seed at a node with predecessors is overwritten by the first flow into
    that node. *)
Theorem C25_seed_with_predecessors_refuted : exists (c : cfg nat nat) (P : problem nat (list nat) nat) R,
  monotone P (@incl nat) /\ graph c P /\ predsExact c P /\
  solve c P 10 = Some R /\ In (1, [9]) (initialSeeds P) /\ flows c P 1 [9] /\
  ~ incl (normalFlow P 1 [9]) (getResultsAt P 1 R).
Proof.
  set (c := mkCfg (fun _ : nat => [0; 1]) (fun _ => [0; 1]) (fun n => if n =? 0 then [1] else [])
              (fun n => if n =? 1 then [0] else []) (fun _ _ => false)).
  set (P := genkill (fun _ => []) (fun _ _ => false) [(1, [9])] [0]).
  exists c, P. eexists. split; [apply genkill_monotone|]. split; [|split; [|split; [vm_compute; reflexivity|split; [cbn; auto|split]]]].
  - assert (HV : forall n, inV c P n <-> n < 2) by (intros n; unfold inV; cbn; split; [intros (? & _ & ?); lia|intros; exists 0; split; auto; lia]).
    constructor; cbn.
    + auto.
    + intros n m _ Hm. apply HV. destruct n; cbn in Hm; lia.
    + intros n m _ Hm. apply HV. destruct (n =? 1); cbn in Hm; lia.
    + intros n m _ Hm. destruct n; cbn in Hm; [|contradiction]. destruct Hm as [<-|[]]. cbn. auto.
    + intros s d p _ Hd _ Hp. destruct s; cbn in Hd; [|contradiction]. destruct Hd as [<-|[]]. cbn in Hp. lia.
  - intros n m _ Hn. destruct m as [|[|m]]; cbn in Hn; try contradiction. destruct Hn as [<-|[]]. cbn. auto.
  - apply flows_start. left. exists [9]. cbn. auto.
  - intros Hi. specialize (Hi 9). cbn in Hi. auto.
Qed.
Print Assumptions C25_seed_with_predecessors_refuted.

(** A seed inside a loop can circulate for ever, although the problem is gen/kill
    over a finite set: the solver does not end. *)
Definition ringC : cfg nat nat :=
  mkCfg (fun _ => [0; 2; 1; 3]) (fun _ => [0; 2; 1; 3])
    (fun n => match n with 0 => [1] | 1 => [2] | 2 => [3] | _ => [1] end)
    (fun n => match n with 1 => [0; 3] | 2 => [1] | 3 => [2] | _ => [] end)
    (fun s d => true).
Definition ringP : problem nat (list nat) nat := genkill (fun _ => []) (fun _ _ => false) [(2, [9])] [0].
Fixpoint steps (k : nat) (st : state (Nd := nat) (M := list nat)) : option state :=
  match k with
  | 0 => Some st
  | S k' => match worklist st with [] => None | (a, b) :: wl => steps k' (step ringC ringP (tab st) a b wl) end
  end.
Lemma steps_none k : forall st st', steps k st = Some st' -> forall fuel, loop ringC ringP fuel st' = None -> loop ringC ringP (k + fuel) st = None.
Proof.
  induction k as [|k IH]; cbn; intros st st' Hs fuel Hf; [congruence|].
  destruct (worklist st) as [|[a b] wl]; [discriminate|]. eauto.
Qed.
Lemma loop_less fuel : forall k st, k <= fuel -> loop ringC ringP fuel st = None -> loop ringC ringP k st = None.
Proof.
  induction fuel as [|fuel IH]; intros k st Hk Hf.
  - now replace k with 0 by lia.
  - cbn [loop] in Hf. destruct (worklist st) as [|[a b] wl] eqn:E; [discriminate|].
    destruct k as [|k]; cbn [loop]; rewrite E; [reflexivity|]. apply IH; auto. lia.
Qed.
Theorem C25_seed_in_loop_diverges_refuted : exists (c : cfg nat nat) (P : problem nat (list nat) nat),
  monotone P (@incl nat) /\ graph c P /\ predsExact c P /\ forall fuel, solve c P fuel = None.
Proof.
  exists ringC, ringP. split; [apply genkill_monotone|].
  assert (HV : forall n, inV ringC ringP n <-> n < 4) by (intros n; unfold inV; cbn; split; [intros (? & _ & ?); lia|intros; exists 0; split; auto; lia]).
  split; [|split].
  - constructor.
    + intros f n _ Hn. exact Hn.
    + intros n m Hn Hm. apply HV in Hn. apply HV. destruct n as [|[|[|[|n]]]]; cbn in Hm; lia.
    + intros n m Hn Hm. apply HV in Hn. apply HV. destruct n as [|[|[|[|n]]]]; cbn in Hm; lia.
    + intros n m Hn Hm. apply HV in Hn. destruct n as [|[|[|[|n]]]]; cbn in Hm; [| | | |lia]; repeat destruct Hm as [<-|Hm]; cbn; auto; contradiction.
    + intros s d p _ _ Hb. discriminate.
  - intros n m Hm Hn. apply HV in Hm. destruct m as [|[|[|[|m]]]]; cbn in Hn; [| | | |lia]; repeat destruct Hn as [<-|Hn]; cbn; auto; contradiction.
  - assert (Hst : exists st, steps 12 (initialize ringC ringP) = Some st /\ steps 6 st = Some st).
    { eexists. split; [vm_compute; reflexivity|]. vm_compute. reflexivity. }
    destruct Hst as (st & H1 & H2).
    assert (G : forall fuel, loop ringC ringP fuel st = None).
    { intros fuel. enough (G : forall j, loop ringC ringP (j * 6) st = None) by (apply (loop_less (fuel * 6)); [lia|apply G]).
      induction j as [|j IH]; [|change (S j * 6) with (6 + j * 6); eapply steps_none; eauto].
      cbn [Nat.mul loop]. destruct (worklist st) as [|[]] eqn:E; [|reflexivity]. cbn [steps] in H2. rewrite E in H2. discriminate. }
    intros fuel. unfold solve. rewrite (loop_less (12 + fuel)); [reflexivity|lia|]. eapply steps_none; eauto.
Qed.
Print Assumptions C25_seed_in_loop_diverges_refuted.

(** If a join point is not reported as a branch target (LLVMBasedCFG does so
    when its block starts with a debug instruction that is skipped), only the
    predecessor handled last counts. *)
Theorem C25_missed_branch_target_refuted : exists (c : cfg nat nat) (P : problem nat (list nat) nat) R,
  monotone P (@incl nat) /\ predsExact c P /\ entrySeeds c P /\
  (forall n m, inV c P n -> In m (succs c n) -> In n (preds c m)) /\
  solve c P 20 = Some R /\ flows c P 3 [1] /\ ~ incl (normalFlow P 3 [1]) (getResultsAt P 3 R).
Proof.
  set (c := mkCfg (fun _ : nat => [0; 1; 2; 3]) (fun _ => [0; 1; 2; 3])
              (fun n => match n with 0 => [1; 2] | 1 | 2 => [3] | _ => [] end)
              (fun n => match n with 1 | 2 => [0] | 3 => [1; 2] | _ => [] end) (fun _ d => negb (d =? 3))).
  set (P := genkill (fun n => if n =? 1 then [1] else []) (fun _ _ => false) [] [0]).
  assert (HV : forall n, inV c P n <-> n < 4) by (intros n; unfold inV; cbn; split; [intros (? & _ & ?); lia|intros; exists 0; split; auto; lia]).
  exists c, P. eexists. split; [apply genkill_monotone|]. split; [|split; [|split; [|split; [vm_compute; reflexivity|split]]]].
  - intros n m Hm Hn. apply HV in Hm. destruct m as [|[|[|[|m]]]]; cbn in Hn; [| | | |lia]; repeat destruct Hn as [<-|Hn]; cbn; auto; contradiction.
  - split; [constructor|intros n x []].
  - intros n m Hn Hm. apply HV in Hn. destruct n as [|[|[|[|n]]]]; cbn in Hm; [| | | |lia]; repeat destruct Hm as [<-|Hm]; cbn; auto; contradiction.
  - change [1] with (normalFlow P 1 (normalFlow P 0 [])). do 2 (apply flows_step; [|cbn; auto]). apply flows_start. right.
    split; [apply HV; lia|]. split; auto.
  - intros Hi. specialize (Hi 1). vm_compute in Hi. destruct Hi; auto.
Qed.
Print Assumptions C25_missed_branch_target_refuted.
