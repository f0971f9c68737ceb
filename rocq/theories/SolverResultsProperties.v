(** C45: querying the results of a solver. *)
From Coq Require Import List Bool Arith Lia.
From Verif Require Import Assoc TableModel TableProofs LLVMCFGModel LLVMCFGSpec LLVMCFGProofs SolverResultsModel.
Import ListNotations.

(** * The queries by node *)
Section Plain.
  Context {N D L : Type} `{EqDec N} `{EqDec D}.
  Implicit Types t : table N D L.

  Lemma strip_In (zero : D) (strip : bool) (row : list (D * L)) d v : NoDup (akeys row) ->
    In (d, v) (if strip then adel zero row else row) <-> In (d, v) row /\ (strip = true -> d <> zero).
  Proof.
    intros ND. destruct strip; [|split; [intros K; split; [exact K|discriminate]|tauto]].
    rewrite In_afind_iff by now apply NoDup_adel. rewrite (In_afind_iff d v row ND), afind_adel by exact ND.
    destruct (eq_dec d zero) as [->|NE]; split.
    - discriminate.
    - intros [_ K]. now elim (K eq_refl).
    - intros K. auto.
    - tauto.
  Qed.

  (** resultsAt returns exactly the stored row, each fact once, without zero when stripping. *)
  Theorem C45_results_are_the_row : forall t zero n strip, t_wf t ->
    NoDup (map fst (resultsAt t zero n strip))
    /\ forall d v, In (d, v) (resultsAt t zero n strip) <-> t_lookup t n d = Some v /\ (strip = true -> d <> zero).
  Proof.
    intros t zero n strip W. assert (ND := t_row_nodup t n W). split.
    - unfold resultsAt. destruct strip; [now apply NoDup_adel|exact ND].
    - intros d v. unfold resultsAt. rewrite strip_In by exact ND. now rewrite (t_row_In t n d v W).
  Qed.

  (** resultAt agrees with resultsAt, and reports the default value for a fact without result. *)
  Theorem C45_result_at : forall dflt t zero n d, t_wf t ->
    (forall v, In (d, v) (resultsAt t zero n false) -> resultAt dflt t n d = v)
    /\ ((forall v, ~ In (d, v) (resultsAt t zero n false)) -> resultAt dflt t n d = dflt).
  Proof.
    intros dflt t zero n d W. destruct (C45_results_are_the_row t zero n false W) as [_ R]. split.
    - intros v K. apply R in K. destruct K as [K _]. unfold resultAt, t_get. now rewrite K.
    - intros K. unfold resultAt, t_get. destruct (t_lookup t n d) as [v|] eqn:E; [|reflexivity]. elim (K v). apply R. split; [exact E|discriminate].
  Qed.

  Theorem C45_ifds_results : forall t n, t_wf t -> NoDup (ifdsResultsAt t n) /\ forall d, In d (ifdsResultsAt t n) <-> exists v, t_lookup t n d = Some v.
  Proof.
    intros t n W. split; [apply NoDup_nodup|]. intros d. unfold ifdsResultsAt. rewrite nodup_In, in_map_iff. split.
    - intros [[d' v] [<- K]]. exists v. now apply (t_row_In t n d' v W).
    - intros [v K]. exists (d, v). split; [reflexivity|]. now apply t_row_In.
  Qed.

  Theorem C45_all_entries : forall t, t_wf t -> NoDup (map fst (getAllResultEntries t))
    /\ forall n d v, In (n, d, v) (getAllResultEntries t) <-> t_lookup t n d = Some v.
  Proof. intros t W. split; [now apply t_cells_NoDup|]. intros n d v. now apply t_cells_In. Qed.
End Plain.
Print Assumptions C45_results_are_the_row.
Print Assumptions C45_result_at.
Print Assumptions C45_ifds_results.
Print Assumptions C45_all_entries.

Example C45_case : let t := t_insert (t_insert (t_insert t_empty 1 0 5) 1 7 6) 2 7 8 in
  t_wf t /\ resultsAt t 0 1 true = [(7, 6)] /\ resultAt 9 t 1 7 = 6 /\ resultAt 9 t 2 0 = 9 /\ ifdsResultsAt t 1 = [0; 7] /\ length (getAllResultEntries t) = 3.
Proof. split; [now repeat apply t_wf_insert; apply t_wf_empty|]. repeat split. Qed.

(** For IFDS problems the default of BinaryDomain is BOTTOM, the value of the facts that hold: resultAt cannot tell a fact
    that never held from one that does. *)
Inductive binaryDomain := BOTTOM | TOP.
Theorem C45_ifds_absent_fact_refuted : exists (t : table nat nat binaryDomain) n d d', t_wf t /\
  In d (ifdsResultsAt t n) /\ ~ In d' (ifdsResultsAt t n) /\ resultAt BOTTOM t n d' = resultAt BOTTOM t n d.
Proof.
  exists (t_insert t_empty 1 7 BOTTOM), 1, 7, 8. split; [apply t_wf_insert, t_wf_empty|]. cbn. intuition congruence.
Qed.
Print Assumptions C45_ifds_absent_fact_refuted.

(** * The queries respecting SSA form *)

(** What executes after an instruction, debug instructions left out. *)
Definition after (f : func) : inst -> inst -> Prop := executesNext f (fun m => isDbg (kindOf f m)).

(** Of valid IR: debug instructions are calls of void functions, the branches that the CFG treats specially have no value. *)
Record wfVoid (f : func) (isVoid : inst -> bool) : Prop := {
  wv_dbg : forall n, valid f n -> isDbg (kindOf f n) = true -> isVoid n = true;
  wv_br : forall b ts l, b < length f -> term (getBlock f b) = Br ts l -> isVoid (terminatorOf f b) = true }.

Section LLVM.
  Context {D L : Type} `{EqDec D} `{EqDec L}.
  Variable lattice : option ((L -> L -> L) * L).
  Variables (dflt : L) (zero : D).
  Notation ssa := (resultsAtSSA lattice dflt).
  Notation ssa1 := (resultAtSSA lattice dflt).

  Lemma startOf_first f b : startOf f b = first true f b.
  Proof. reflexivity. Qed.

  Lemma next_some_lt f n m : getNextNode f n = Some m -> m = (fst n, S (snd n)) /\ S (snd n) < length (insts (getBlock f (fst n))).
  Proof. unfold getNextNode. destruct (S (snd n) <? _) eqn:E; [|discriminate]. intros [= <-]. split; [reflexivity|]. now apply Nat.ltb_lt. Qed.
  Lemma next_none_last f n : valid f n -> getNextNode f n = None -> n = terminatorOf f (fst n).
  Proof.
    intros [_ V]. unfold getNextNode. destruct (S (snd n) <? _) eqn:E; [discriminate|]. intros _. apply Nat.ltb_ge in E.
    destruct n as [b i]. unfold terminatorOf. cbn [fst snd] in *. f_equal. lia.
  Qed.

  (** what follows a value-producing last instruction: the starts of the targets *)
  Lemma after_last f isVoid n m : wf f -> wfVoid f isVoid -> valid f n -> isVoid n = false -> getNextNode f n = None ->
    after f n m <-> exists b, In b (targets f (fst n)) /\ m = startOf f b.
  Proof.
    intros Wf Wv V NV NN. assert (E := next_none_last f n V NN). assert (V1 := proj1 V). destruct n as [b i]. cbn [fst] in *. unfold terminatorOf in E. injection E as E.
    assert (Tk : targets f b = match term (getBlock f b) with Other ts => ts | _ => [] end).
    { unfold targets. destruct (term (getBlock f b)) as [|ts l|ts] eqn:T; try reflexivity. assert (K := wv_br f isVoid Wv b ts l V1 T). unfold terminatorOf in K. rewrite E in NV. congruence. }
    assert (Run : forall t, In t (targets f b) -> forall j k, first true f t = (t, j) -> k <= j -> j < length (insts (getBlock f t)) ->
       (forall k, k < j -> isDbg (kindOf f (t, k)) = true) -> isDbg (kindOf f (t, j)) = false -> forall n', executes f n' (t, k) -> after f n' (t, j)).
    { intros t Ht j k _ Hk Lj Sk Nj. remember (j - k) as d eqn:Ed. revert k Hk Ed. induction d as [|d IH]; intros k Hk Ed n' Ex.
      - assert (k = j) by lia. subst k. now apply en_step.
      - apply en_skip with (t, k); [exact Ex|apply Sk; lia|]. apply (IH (S k)); [lia|lia|]. constructor. lia. }
    split.
    - intros A. assert (G : forall x, executes f (b, i) x -> exists t, In t (targets f b) /\ x = (t, 0)).
      { intros x Ex. inversion Ex; subst; [|eauto]. cbn in *. destruct V as [_ V]. cbn in V. lia. }
      assert (W : forall n' m', after f n' m' -> forall t k, n' = (t, k) -> t < length f -> (forall k', k' <= k -> isDbg (kindOf f (t, k')) = true) -> k < length (insts (getBlock f t)) -> m' = first true f t).
      { unfold after. induction 1 as [n' m' Ex Sk|n' x m' Ex Sk _ IH]; intros t k -> Lt Pre Lk.
        - inversion Ex as [? ? L1|? ? t' L1]; subst.
          + symmetry. apply (first_unique true f Wf t (S k) Lt); auto. intros k' K'. apply Pre. lia.
          + exfalso. assert (TK := term_kept true f Wf t Lt). unfold skipped in TK. cbn in TK. assert (k = length (insts (getBlock f t)) - 1) by lia. subst k. rewrite (Pre _ (le_n _)) in TK. discriminate.
        - inversion Ex as [? ? L1|? ? t' L1]; subst.
          + apply (IH t (S k)); auto. intros k' K'. destruct (Nat.eq_dec k' (S k)) as [->|]; [exact Sk|apply Pre; lia].
          + exfalso. assert (TK := term_kept true f Wf t Lt). unfold skipped in TK. cbn in TK. assert (k = length (insts (getBlock f t)) - 1) by lia. subst k. rewrite (Pre _ (le_n _)) in TK. discriminate. }
      inversion A as [? ? Ex Sk|? x ? Ex Sk A']; subst.
      + destruct (G m Ex) as [t [T ->]]. exists t. split; [exact T|]. rewrite startOf_first. unfold first. unfold skipped. cbn [andb]. now rewrite Sk.
      + destruct (G x Ex) as [t [T ->]]. exists t. split; [exact T|]. destruct (wf_target f Wf b t V1 T) as [Lt _]. rewrite startOf_first.
        apply (W _ _ A' t 0 eq_refl Lt); [|apply (len_pos f Wf t Lt)]. intros k' K'. assert (k' = 0) by lia. now subst.
    - intros [t [T ->]]. destruct (wf_target f Wf b t V1 T) as [Lt _]. rewrite startOf_first. destruct (first_ok true f Wf t Lt) as (j & F & Lj & Nj & Pre).
      rewrite F. apply (Run t T j 0 F); auto; [lia|]. subst i. apply ex_branch; [|exact T]. assert (P := len_pos f Wf b V1). cbn in *. lia.
  Qed.

  Implicit Types t : table inst D L.

  (** An instruction without a value: the results at the instruction itself. *)
  Theorem C45_ssa_void : forall t f isVoid n allow strip, t_wf t -> isVoid n = true ->
    exists r, ssa t zero f isVoid n allow strip = Some r /\ forall d v, In (d, v) r <-> t_lookup t n d = Some v /\ (strip = true -> d <> zero).
  Proof.
    intros t f isVoid n allow strip W V. unfold resultsAtSSA. rewrite V. eexists. split; [reflexivity|]. intros d v.
    rewrite strip_In by now apply t_row_nodup. now rewrite (t_row_In t n d v W).
  Qed.

  (** A value-producing instruction inside a block, followed by no debug instruction: exactly the results at the one
      instruction that executes next. *)
  Theorem C45_ssa_inner_partial : forall t f isVoid n allow strip, t_wf t -> wf f -> valid f n -> isVoid n = false ->
    isTerminator f n = false -> isDbg (kindOf f (fst n, S (snd n))) = false ->
    exists r, ssa t zero f isVoid n allow strip = Some r /\ forall m, after f n m ->
      forall d v, In (d, v) r <-> t_lookup t m d = Some v /\ (strip = true -> d <> zero).
  Proof.
    intros t f isVoid n allow strip W Wf V NV NT ND. assert (G : getNextNode f n = Some (fst n, S (snd n))).
    { unfold getNextNode. unfold isTerminator in NT. destruct V as [_ V]. apply Nat.eqb_neq in NT. rewrite (proj2 (Nat.ltb_lt (S (snd n)) (length (insts (getBlock f (fst n)))))) by lia. reflexivity. }
    unfold resultsAtSSA. rewrite NV, G. eexists. split; [reflexivity|]. intros m A d v. assert (m = (fst n, S (snd n))).
    { destruct (next_some_lt f n _ G) as [_ Ls]. destruct n as [b i]. cbn [fst snd] in *. inversion A as [? ? Ex Sk|? x ? Ex Sk A']; subst; inversion Ex; subst; try lia; [reflexivity|]. cbn in ND. congruence. }
    subst m. rewrite strip_In by now apply t_row_nodup. now rewrite (t_row_In t _ d v W).
  Qed.

  (** merging of rows, fact by fact *)
  Definition optMerge (o : option L) (vs : list L) : option L :=
    fold_left (fun o v => match o with None => Some v | Some x => Some (mergeVal lattice dflt x v) end) vs o.
  Definition valsOf (d : D) (rows : list (list (D * L))) : list L := flat_map (fun r => match afind d r with Some v => [v] | None => [] end) rows.

  Lemma mergeRow_find (row : list (D * L)) : forall acc (d : D), NoDup (akeys row) -> NoDup (akeys acc) ->
    afind d (mergeRow lattice dflt acc row) = optMerge (afind d acc) (match afind d row with Some v => [v] | None => [] end) /\ NoDup (akeys (mergeRow lattice dflt acc row)).
  Proof.
    unfold mergeRow. induction row as [|[k v] row IH]; intros acc d NR NA; cbn [fold_left]; [auto|]. cbn [fst snd].
    inversion NR as [|? ? NI NR']; subst.
    assert (NI' : afind k row = None) by now apply afind_None.
    set (acc' := match afind k acc with None => aset k v acc | Some o => aset k (mergeVal lattice dflt o v) acc end).
    assert (NA' : NoDup (akeys acc')) by (unfold acc'; destruct (afind k acc); now apply NoDup_aset).
    destruct (IH acc' d NR' NA') as [IH1 IH2]. split; [|exact IH2]. rewrite IH1. cbn [afind]. destruct (eq_dec d k) as [->|NE].
    - rewrite NI'. unfold acc'. destruct (afind k acc) as [o|]; rewrite afind_aset_eq; reflexivity.
    - f_equal. unfold acc'. destruct (afind k acc); now rewrite afind_aset_neq by exact NE.
  Qed.
  Lemma mergeRows_find (rows : list (list (D * L))) : forall acc (d : D), (forall r, In r rows -> NoDup (akeys r)) -> NoDup (akeys acc) ->
    afind d (fold_left (mergeRow lattice dflt) rows acc) = optMerge (afind d acc) (valsOf d rows) /\ NoDup (akeys (fold_left (mergeRow lattice dflt) rows acc)).
  Proof.
    induction rows as [|r rows IH]; intros acc d NR NA; cbn [fold_left]; [auto|].
    destruct (mergeRow_find r acc d (NR r (or_introl eq_refl)) NA) as [M1 M2]. destruct (IH _ d (fun r' I => NR r' (or_intror I)) M2) as [IH1 IH2].
    split; [|exact IH2]. rewrite IH1, M1. unfold optMerge, valsOf. cbn [flat_map]. now rewrite fold_left_app.
  Qed.

  Lemma valsOf_In (d : D) rows v : In v (valsOf d rows) <-> exists r, In r rows /\ afind d r = Some v.
  Proof.
    unfold valsOf. rewrite in_flat_map. split; intros [r [I K]]; exists r; (split; [exact I|]).
    - destruct (afind d r) as [w|]; [destruct K as [->|[]]; reflexivity|destruct K].
    - rewrite K. now left.
  Qed.

  (** A value-producing terminator. If no target has a single predecessor, the query is refused unless over-approximations
      are allowed; then every result of every following instruction is covered by an upper bound of all of them,
      and nothing else is reported. Without a lattice different values become the default. *)
  Theorem C45_ssa_merged : forall t f isVoid n strip, t_wf t -> wf f -> wfVoid f isVoid -> valid f n -> isVoid n = false -> isTerminator f n = true ->
    (forall b, In b (targets f (fst n)) -> length (predBlocks f b) <> 1) ->
    ssa t zero f isVoid n false strip = None
    /\ exists r, ssa t zero f isVoid n true strip = Some r
    /\ (forall d, (exists v, In (d, v) r) <-> (strip = true -> d <> zero) /\ exists m v, after f n m /\ t_lookup t m d = Some v)
    /\ (forall d v w, In (d, v) r -> In (d, w) r -> v = w)
    /\ (forall j bot (le : L -> L -> Prop), lattice = Some (j, bot) -> (forall a, le a a) -> (forall a b c : L, le a b -> le b c -> le a c) -> (forall a b, le a (j a b) /\ le b (j a b)) ->
          forall d v, In (d, v) r -> forall m w, after f n m -> t_lookup t m d = Some w -> le w v)
    /\ (forall j bot (le : L -> L -> Prop), lattice = Some (j, bot) -> (forall a b c, le a c -> le b c -> le (j a b) c) ->
          forall d v, In (d, v) r -> forall u, (forall m w, after f n m -> t_lookup t m d = Some w -> le w u) -> le v u)
    /\ (lattice = None -> forall d v, In (d, v) r ->
          (forall m w, after f n m -> t_lookup t m d = Some w -> w = v) \/ v = dflt /\ exists m m' w w', after f n m /\ after f n m' /\ t_lookup t m d = Some w /\ t_lookup t m' d = Some w' /\ w <> w').
  Proof.
    intros t f isVoid n strip W Wf Wv V NV T NP.
    assert (G : getNextNode f n = None).
    { unfold getNextNode. unfold isTerminator in T. apply Nat.eqb_eq in T. rewrite T, Nat.ltb_irrefl. reflexivity. }
    assert (F : find (singlePred f) (targets f (fst n)) = None).
    { destruct (find (singlePred f) (targets f (fst n))) as [b|] eqn:E; [|reflexivity]. apply find_some in E. destruct E as [E1 E2].
      unfold singlePred in E2. apply Nat.eqb_eq in E2. elim (NP b E1 E2). }
    unfold resultsAtSSA. rewrite NV, G, F. split; [reflexivity|]. eexists. split; [reflexivity|].
    set (rows := map (fun b => t_row t (startOf f b)) (targets f (fst n))).
    assert (NR : forall r, In r rows -> NoDup (akeys r)) by (intros r I; apply in_map_iff in I; destruct I as [b [<- _]]; now apply t_row_nodup).
    assert (Vals : forall d v, In v (valsOf d rows) <-> exists m, after f n m /\ t_lookup t m d = Some v).
    { intros d v. rewrite valsOf_In. split.
      - intros [r [I K]]. apply in_map_iff in I. destruct I as [b [<- I]]. exists (startOf f b). split; [apply (after_last f isVoid n _ Wf Wv V NV G); eauto|]. now rewrite t_lookup_row.
      - intros [m [A K]]. apply (after_last f isVoid n m Wf Wv V NV G) in A. destruct A as [b [B ->]]. exists (t_row t (startOf f b)). split; [apply in_map_iff; eauto|]. now rewrite t_lookup_row in K. }
    assert (ND : NoDup (akeys (fold_left (mergeRow lattice dflt) rows []))) by (apply (mergeRows_find rows [] zero NR); apply NoDup_nil).
    assert (Fd : forall d, afind d (fold_left (mergeRow lattice dflt) rows []) = optMerge None (valsOf d rows)) by (intros d; apply (mergeRows_find rows [] d NR), NoDup_nil).
    assert (In' : forall d v, In (d, v) (if strip then adel zero (fold_left (mergeRow lattice dflt) rows []) else fold_left (mergeRow lattice dflt) rows []) <-> optMerge None (valsOf d rows) = Some v /\ (strip = true -> d <> zero)).
    { intros d v. rewrite strip_In by exact ND. now rewrite In_afind_iff, Fd by exact ND. }
    split; [|split; [|split; [|split]]].
    - intros d. split.
      + intros [v K]. apply In' in K. destruct K as [K1 K2]. split; [exact K2|]. destruct (valsOf d rows) as [|w vs] eqn:E; [discriminate|].
        assert (I : In w (valsOf d rows)) by (rewrite E; now left). apply Vals in I. destruct I as [m [A K]]. eauto.
      + intros [K1 [m [v [A K]]]]. assert (I : In v (valsOf d rows)) by (apply Vals; eauto). destruct (valsOf d rows) as [|w vs] eqn:E; [destruct I|].
        assert (Ex : forall vs' x, exists y, optMerge (Some x) vs' = Some y) by (induction vs' as [|a vs' IH]; intros x; [eexists; reflexivity|apply IH]).
        destruct (Ex vs w) as [y Y]. exists y. apply In'. split; [rewrite E; exact Y|exact K1].
    - intros d v w K1 K2. apply In' in K1. apply In' in K2. destruct K1 as [K1 _], K2 as [K2 _]. congruence.
    - intros j bot le EL Refl Trans Ub d v K m w A Lk. apply In' in K. destruct K as [K _]. assert (I : In w (valsOf d rows)) by (apply Vals; eauto).
      assert (Gen : forall vs x y, optMerge (Some x) vs = Some y -> le x y /\ forall w, In w vs -> le w y).
      { induction vs as [|a vs IH]; intros x y E; [injection E as <-; split; [apply Refl|intros ? []]|]. cbn in E. destruct (IH _ _ E) as [IH1 IH2].
        unfold mergeVal in IH1. rewrite EL in IH1. destruct (eqb a x) eqn:Eq.
        - apply eqb_eq in Eq. subst a. split; [exact IH1|]. intros w' [<-|I']; [exact IH1|auto].
        - destruct (Ub x a) as [U1 U2]. split; [eapply Trans; eauto|]. intros w' [<-|I']; [eapply Trans; eauto|auto]. }
      destruct (valsOf d rows) as [|x vs]; [destruct I|]. destruct (Gen vs x v K) as [G1 G2]. destruct I as [<-|I]; auto.
    - intros j bot le EL Lub d v K u Ub. apply In' in K. destruct K as [K _].
      assert (Ub' : forall w, In w (valsOf d rows) -> le w u) by (intros w I; apply Vals in I; destruct I as [m [A Lk]]; eapply Ub; eauto).
      assert (Gen : forall vs x y, optMerge (Some x) vs = Some y -> le x u -> (forall w, In w vs -> le w u) -> le y u).
      { induction vs as [|a vs IH]; intros x y E Lx Lv; [injection E as <-; exact Lx|]. cbn in E. apply (IH _ _ E); [|intros w I; apply Lv; now right].
        unfold mergeVal. rewrite EL. destruct (eqb a x); [exact Lx|]. apply Lub; [exact Lx|apply Lv; now left]. }
      destruct (valsOf d rows) as [|x vs]; [discriminate|]. apply (Gen vs x v K); [apply Ub'; now left|intros w I; apply Ub'; now right].
    - intros EL d v K. apply In' in K. destruct K as [K _].
      assert (Gen : forall vs x y, optMerge (Some x) vs = Some y -> (y = x /\ forall w, In w vs -> w = x) \/ (y = dflt /\ exists w w', In w (x :: vs) /\ In w' (x :: vs) /\ w <> w')
         \/ (x = dflt /\ y = dflt)).
      { induction vs as [|a vs IH]; intros x y E; [injection E as <-; left; split; [reflexivity|intros ? []]|].
        change (optMerge (Some (mergeVal lattice dflt x a)) vs = Some y) in E. replace (mergeVal lattice dflt x a) with (if eqb a x then x else dflt) in E by (unfold mergeVal; now rewrite EL). destruct (eqb a x) eqn:Eq.
        - apply eqb_eq in Eq. subst a. destruct (IH _ _ E) as [[-> I1]|[[-> [w [w' [I1 [I2 I3]]]]]|[-> ->]]].
          + left. split; [reflexivity|]. intros w [<-|I]; auto.
          + right; left. split; [reflexivity|]. exists w, w'. split; [|split; [|exact I3]]; right; assumption.
          + right; right. auto.
        - apply eqb_false in Eq. assert (y = dflt) by (destruct (IH _ _ E) as [[-> _]|[[-> _]|[_ ->]]]; reflexivity). subst y.
          right; left. split; [reflexivity|]. exists a, x. split; [right; now left|split; [now left|exact Eq]]. }
      assert (Wit : forall w w', In w (valsOf d rows) -> In w' (valsOf d rows) -> w <> w' -> exists m m' w0 w0', after f n m /\ after f n m' /\ t_lookup t m d = Some w0 /\ t_lookup t m' d = Some w0' /\ w0 <> w0').
      { intros w w' I1 I2 Ne. apply Vals in I1. apply Vals in I2. destruct I1 as [m [A1 L1]], I2 as [m' [A2 L2]]. exists m, m', w, w'. auto 8. }
      destruct (valsOf d rows) as [|x vs] eqn:Ev; [discriminate|].
      assert (Dec : (forall w, In w vs -> w = x) \/ exists w, In w vs /\ w <> x).
      { clear - H0. induction vs as [|a vs IH]; [left; intros ? []|]. destruct (eq_dec a x) as [->|Ne]; [|right; exists a; split; [now left|exact Ne]].
        destruct IH as [IH|[w [I1 I2]]]; [left; intros w [<-|I]; auto|right; exists w; split; [now right|exact I2]]. }
      destruct Dec as [All|[w [I Ne]]].
      + left. intros m w A Lk. assert (I : In w (valsOf d rows)) by (apply Vals; eauto). rewrite Ev in I.
        assert (Ey : v = x). { clear - K All EL H0. revert K. induction vs as [|a vs IH]; intros K; [injection K as <-; reflexivity|]. change (optMerge (Some (mergeVal lattice dflt x a)) vs = Some v) in K. rewrite (All a (or_introl eq_refl)) in K.
          replace (mergeVal lattice dflt x x) with x in K by (unfold mergeVal; now rewrite eqb_refl).
          apply IH; [intros w I; apply All; now right|exact K]. }
        subst v. destruct I as [<-|I]; [reflexivity|now apply All].
      + right. split; [|apply (Wit w x); [now right|now left|exact Ne]].
        destruct (Gen vs x v K) as [[-> Al]|[[-> _]|[-> ->]]]; try reflexivity. elim Ne. auto.
  Qed.

  (** A value-producing terminator with a target that has no other predecessor: exactly the results at the start of
      such a target (the first one), but not of the other targets. *)
  Theorem C45_ssa_terminator_partial : forall t f isVoid n allow strip, t_wf t -> wf f -> wfVoid f isVoid -> valid f n -> isVoid n = false -> isTerminator f n = true ->
    (exists b, In b (targets f (fst n)) /\ length (predBlocks f b) = 1) ->
    exists r m, ssa t zero f isVoid n allow strip = Some r /\ after f n m /\ length (predBlocks f (fst m)) = 1
      /\ forall d v, In (d, v) r <-> t_lookup t m d = Some v /\ (strip = true -> d <> zero).
  Proof.
    intros t f isVoid n allow strip W Wf Wv V NV T [b [B1 B2]].
    assert (G : getNextNode f n = None).
    { unfold getNextNode. unfold isTerminator in T. apply Nat.eqb_eq in T. rewrite T, Nat.ltb_irrefl. reflexivity. }
    destruct (find (singlePred f) (targets f (fst n))) as [b'|] eqn:F.
    - apply find_some in F as F'. destruct F' as [F1 F2]. unfold singlePred in F2. apply Nat.eqb_eq in F2.
      unfold resultsAtSSA. rewrite NV, G, F. eexists. exists (startOf f b'). split; [reflexivity|]. split; [apply (after_last f isVoid n _ Wf Wv V NV G); eauto|]. split.
      + destruct (wf_target f Wf (fst n) b' (proj1 V) F1) as [Lt _]. destruct (first_ok true f Wf b' Lt) as (j & E & _). rewrite startOf_first, E. exact F2.
      + intros d v. rewrite strip_In by now apply t_row_nodup. now rewrite (t_row_In t _ d v W).
    - apply (find_none _ _ F) in B1. unfold singlePred in B1. rewrite B2 in B1. discriminate.
  Qed.

  (** The query for one fact agrees with the query for all of them (and gives the default for unreported facts), unless rows are
      merged and some of them lack the fact. *)
  Theorem C45_ssa_queries_agree_partial : forall t f isVoid n allow d r, t_wf t ->
    (forall j bot, lattice = Some (j, bot) -> (forall a, j a a = a) /\ forall a, j bot a = bot) ->
    ssa t zero f isVoid n allow false = Some r ->
    (isVoid n = false -> getNextNode f n = None -> (forall b, In b (targets f (fst n)) -> length (predBlocks f b) <> 1) ->
       forall b, In b (targets f (fst n)) -> t_lookup t (startOf f b) d <> None) ->
    ssa1 t f isVoid n d allow = Some (match afind d r with Some v => v | None => dflt end).
  Proof.
    intros t f isVoid n allow d r W Lat R All. unfold resultsAtSSA in R. unfold resultAtSSA. destruct (isVoid n).
    { assert (t_row t n = r) by congruence. subst r. unfold t_get. now rewrite t_lookup_row. }
    destruct (getNextNode f n) as [m|]. { assert (t_row t m = r) by congruence. subst r. unfold t_get. now rewrite t_lookup_row. }
    destruct (find (singlePred f) (targets f (fst n))) as [b|] eqn:F. { assert (t_row t (startOf f b) = r) by congruence. subst r. unfold t_get. now rewrite t_lookup_row. }
    destruct allow; [|discriminate]. assert (Er : fold_left (mergeRow lattice dflt) (map (fun b => t_row t (startOf f b)) (targets f (fst n))) [] = r) by congruence. subst r. f_equal.
    set (rows := map (fun b => t_row t (startOf f b)) (targets f (fst n))).
    assert (NR : forall r, In r rows -> NoDup (akeys r)) by (intros r I; apply in_map_iff in I; destruct I as [b [<- _]]; now apply t_row_nodup).
    assert (Pr : forall b, In b (targets f (fst n)) -> t_lookup t (startOf f b) d <> None).
    { apply All; auto. intros b B E. apply (find_none _ _ F) in B. unfold singlePred in B. rewrite E in B. discriminate. }
    rewrite (proj1 (mergeRows_find rows [] d NR (NoDup_nil _))). cbn [afind].
    assert (Ev : map (fun b => t_get dflt t (startOf f b) d) (targets f (fst n)) = valsOf d rows).
    { unfold rows. clear - Pr W. revert Pr. generalize (targets f (fst n)) as ts. induction ts as [|b ts IH]; intros Pr; cbn; [reflexivity|]. specialize (IH (fun b I => Pr b (or_intror I))). rewrite IH.
      unfold t_get. assert (K := Pr b (or_introl eq_refl)). rewrite t_lookup_row in *. destruct (afind d (t_row t (startOf f b))); [reflexivity|now elim K]. }
    rewrite Ev. destruct (valsOf d rows) as [|v vs]; [reflexivity|]. cbn [optMerge fold_left]. change (mergeVals lattice dflt v vs = match optMerge (Some v) vs with Some v => v | None => dflt end).
    clear - Lat. revert v. destruct lattice as [[j bot]|] eqn:EL.
    - destruct (Lat j bot eq_refl) as [Idem Abs].
      assert (Mv : forall a b, mergeVal (Some (j, bot)) dflt a b = j a b) by (intros a b; unfold mergeVal; destruct (eqb b a) eqn:E; [apply eqb_eq in E; subst; now rewrite Idem|reflexivity]).
      assert (Bot : forall vs, fold_left (fun o v => match o with None => Some v | Some x => Some (mergeVal (Some (j, bot)) dflt x v) end) vs (Some bot) = Some bot) by
        (induction vs0 as [|a vs0 IH]; [reflexivity|]; cbn [fold_left]; rewrite Mv, Abs; exact IH).
      unfold optMerge. rewrite EL. induction vs as [|a vs IH]; intros v; [reflexivity|]. cbn [mergeVals fold_left]. cbv zeta. rewrite Mv. destruct (eqb (j v a) bot) eqn:E; [|apply IH].
      apply eqb_eq in E. rewrite E, Bot. reflexivity.
    - unfold optMerge. rewrite EL. 
      assert (Df : forall vs, fold_left (fun o v => match o with None => Some v | Some x => Some (mergeVal None dflt x v) end) vs (Some dflt) = Some dflt) by
        (induction vs0 as [|a vs0 IH]; [reflexivity|]; cbn [fold_left]; unfold mergeVal at 2; destruct (eqb a dflt); exact IH).
      induction vs as [|a vs IH]; intros v; [reflexivity|]. cbn [mergeVals fold_left]. unfold mergeVal at 2. destruct (eqb v a) eqn:E.
      + apply eqb_eq in E. subst a. rewrite eqb_refl. apply IH.
      + assert (E2 : eqb a v = false) by (apply eqb_false; apply eqb_false in E; congruence). rewrite E2, Df. reflexivity.
  Qed.

  (** The solvers forward to these queries ... *)
  Theorem C45_solver_queries : forall t f isVoid n d strip,
    solverResultAt dflt t n d = resultAt dflt t n d /\ solverResultsAt t zero n strip = resultsAt t zero n strip
    /\ solverIfdsResultsAt t zero n = ifdsResultsAt t n
    /\ (forall r, solverIfdsResultsAtSSA t zero f isVoid n = Some r -> exists r', ssa t zero f isVoid n false false = Some r' /\ forall d, In d r <-> exists v, In (d, v) r').
  Proof.
    intros t f isVoid n d strip. do 3 (split; [reflexivity|]). intros r. unfold solverIfdsResultsAtSSA, resultsAtSSA.
    assert (G : forall l : list (D * L), forall d', In d' (nodup eq_dec (map fst l)) <-> exists v, In (d', v) l).
    { intros l d'. rewrite nodup_In, in_map_iff. split; [intros [[d0 v] [<- I]]; eauto|intros [v I]; exists (d', v); auto]. }
    destruct (isVoid n); [intros [= <-]; eexists; split; [reflexivity|]; apply G|].
    destruct (getNextNode f n); [|discriminate]. intros [= <-]. eexists. split; [reflexivity|]. apply G.
  Qed.
End LLVM.
Print Assumptions C45_ssa_void.
Print Assumptions C45_ssa_inner_partial.
Print Assumptions C45_ssa_merged.
Print Assumptions C45_ssa_terminator_partial.
Print Assumptions C45_ssa_queries_agree_partial.
Print Assumptions C45_solver_queries.

(** ... except that resultsAtInLLVMSSA passes its flag for stripping zero as the permission to over-approximate: zero is never stripped. *)
Definition straightF : func := [mkBlock [Plain; Plain] Ret].
Definition valueOnly (ns : list inst) (n : inst) : bool := negb (mem n ns).
Lemma straight_wf : wf straightF.
Proof.
  split; [intros [|b] Hb; [cbn; split; [discriminate|reflexivity]|cbn in Hb; lia]|]. intros [|b] t Hb Ht; [destruct Ht|cbn in Hb; lia].
Qed.
Theorem C45_solver_strip_refuted : exists (t : table inst nat nat) f isVoid n r, t_wf t /\ wf f /\ valid f n /\
  solverResultsAtSSA None 9 t 0 f isVoid n true = Some r /\ In (0, 5) r /\ ~ In (0, 5) (solverResultsAt t 0 n true).
Proof.
  exists (t_insert (t_insert t_empty (0, 1) 0 5) (0, 1) 7 5), straightF, (valueOnly [(0, 0)]), (0, 0), [(0, 5); (7, 5)].
  split; [do 2 apply t_wf_insert; apply t_wf_empty|]. split; [apply straight_wf|]. split; [cbv; lia|]. split; [reflexivity|]. cbn. intuition congruence.
Qed.
Print Assumptions C45_solver_strip_refuted.
(** The flag changes the outcome of the query in another way: without it the query stops with a fatal error. *)
Definition mergeF : func := [mkBlock [Plain] (Br [1; 2] false); mkBlock [Plain] (Other [3; 4]); mkBlock [Plain] (Other [3; 4]); mkBlock [Plain] Ret; mkBlock [DbgValue; Plain] Ret].
Definition mergeVoid := valueOnly [(1, 0); (2, 0)].
Lemma merge_wf : wf mergeF /\ wfVoid mergeF mergeVoid.
Proof.
  split; split.
  - intros b Hb. do 5 (destruct b as [|b]; [cbn; split; [discriminate|reflexivity]|]). cbn in Hb. lia.
  - intros b t Hb Ht. do 5 (destruct b as [|b]; [cbn in Ht |- *; lia|]). cbn in Hb. lia.
  - intros [b i] [Vb Vi] K. do 5 (destruct b as [|b]; [cbn in Vi; do 2 (destruct i as [|i]; [try reflexivity; discriminate K|]); lia|]). cbn in Vb. lia.
  - intros b ts l Hb T. do 5 (destruct b as [|b]; [try discriminate T; reflexivity|]). cbn in Hb. lia.
Qed.
Definition mergeT : table inst nat nat := t_insert (t_insert (t_insert t_empty (3, 0) 7 4) (4, 1) 7 6) (4, 1) 8 3.
Example C45_ssa_case : t_wf mergeT /\ valid mergeF (1, 0) /\ mergeVoid (1, 0) = false /\ isTerminator mergeF (1, 0) = true
  /\ (forall b, In b (targets mergeF 1) -> length (predBlocks mergeF b) <> 1)
  /\ resultsAtSSA (Some (Nat.max, 100)) 9 mergeT 0 mergeF mergeVoid (1, 0) true true = Some [(7, 6); (8, 3)]
  /\ resultAtSSA (Some (Nat.max, 100)) 9 mergeT mergeF mergeVoid (1, 0) 7 true = Some 6
  /\ resultsAtSSA None 9 mergeT 0 mergeF mergeVoid (1, 0) true true = Some [(7, 9); (8, 3)]
  /\ solverResultsAtSSA None 9 mergeT 0 mergeF mergeVoid (1, 0) false = None.
Proof.
  split; [do 3 apply t_wf_insert; apply t_wf_empty|]. split; [cbv; lia|]. split; [reflexivity|]. split; [reflexivity|]. split; [intros b [<-|[<-|[]]]; discriminate|]. repeat split.
Qed.

(** A fact some of the merged rows lack: the query for the single fact joins the default value, the query for all facts does not. *)
Theorem C45_ssa_queries_agree_refuted : exists (t : table inst nat nat) f isVoid n r v w, t_wf t /\ wf f /\ wfVoid f isVoid /\ valid f n /\
  resultsAtSSA (Some (Nat.max, 100)) 9 t 0 f isVoid n true false = Some r /\ In (8, v) r /\ resultAtSSA (Some (Nat.max, 100)) 9 t f isVoid n 8 true = Some w /\ v <> w.
Proof.
  exists mergeT, mergeF, mergeVoid, (1, 0), [(7, 6); (8, 3)], 3, 9. split; [do 3 apply t_wf_insert; apply t_wf_empty|]. split; [apply merge_wf|]. split; [apply merge_wf|].
  split; [cbv; lia|]. split; [reflexivity|]. split; [cbn; auto|]. split; [reflexivity|discriminate].
Qed.
Print Assumptions C45_ssa_queries_agree_refuted.

(** An instruction followed by a debug instruction has no results at all, since debug instructions are no nodes of the analysis. *)
Definition debugF : func := [mkBlock [Plain; DbgValue; Plain] Ret].
Theorem C45_ssa_debug_instruction_refuted : exists (t : table inst nat nat) f isVoid n m, t_wf t /\ wf f /\ wfVoid f isVoid /\ valid f n /\
  (forall x, t_row t x <> [] -> isDbg (kindOf f x) = false) /\ after f n m /\ t_lookup t m 7 = Some 5
  /\ resultsAtSSA None 9 t 0 f isVoid n true false = Some [] /\ resultAtSSA None 9 t f isVoid n 7 true = Some 9.
Proof.
  exists (t_insert t_empty (0, 2) 7 5), debugF, (valueOnly [(0, 0)]), (0, 0), (0, 2). split; [apply t_wf_insert, t_wf_empty|]. split; [|split].
  - split; [intros [|b] Hb; [cbn; split; [discriminate|reflexivity]|cbn in Hb; lia]|]. intros [|b] t Hb Ht; [destruct Ht|cbn in Hb; lia].
  - split; [|intros [|b] ts l Hb T; [discriminate|cbn in Hb; lia]]. intros [[|b] i] [Vb Vi] K; [|cbn in Vb; lia]. destruct i as [|[|i]]; [discriminate|reflexivity|]. reflexivity.
  - split; [cbv; lia|]. split; [|split; [|repeat split]].
    + intros x K. unfold t_row, afindd in K. cbn in K. destruct (eq_dec x (0, 2)) as [->|]; [reflexivity|now elim K].
    + apply en_skip with (0, 1); [apply ex_next; cbn; lia|reflexivity|]. apply en_step; [apply ex_next; cbn; lia|reflexivity].
Qed.
Print Assumptions C45_ssa_debug_instruction_refuted.

(** An invoke whose landing pad has no other predecessor while its normal destination has: only the results behind
    the exceptional edge are reported, the facts behind the normal return are lost. *)
Definition invokeF : func := [mkBlock [Plain] (Other [1; 2]); mkBlock [Plain] Ret; mkBlock [Plain] (Br [1] false)].
Theorem C45_ssa_other_target_refuted : exists (t : table inst nat nat) f isVoid n m, t_wf t /\ wf f /\ wfVoid f isVoid /\ valid f n /\
  after f n m /\ t_lookup t m 7 = Some 5 /\ resultsAtSSA None 9 t 0 f isVoid n true false = Some [] /\ resultAtSSA None 9 t f isVoid n 7 true = Some 9.
Proof.
  exists (t_insert t_empty (1, 0) 7 5), invokeF, (valueOnly [(0, 0)]), (0, 0), (1, 0). split; [apply t_wf_insert, t_wf_empty|]. split; [|split].
  - split; intros b; [intros Hb|intros t Hb Ht]; do 3 (destruct b as [|b]; [cbn in *; try (split; [discriminate|reflexivity]); lia|]); cbn in Hb; lia.
  - split; [intros [b i] [Vb Vi] K|intros b ts l Hb T].
    + do 3 (destruct b as [|b]; [cbn in Vi; destruct i; [discriminate K|lia]|]). cbn in Vb. lia.
    + do 3 (destruct b as [|b]; [try discriminate T; reflexivity|]). cbn in Hb. lia.
  - split; [cbv; lia|]. split; [|repeat split]. apply en_step; [apply ex_branch; cbn; auto|reflexivity].
Qed.
Print Assumptions C45_ssa_other_target_refuted.

(** ifdsResultsAtInLLVMSSA assumes that terminators have no value: an invoke makes its assertion fail. *)
Theorem C45_solver_ifds_invoke_refuted : exists (t : table inst nat nat) f isVoid n, t_wf t /\ wf f /\ valid f n /\
  solverIfdsResultsAtSSA t 0 f isVoid n = None /\ resultsAtSSA None 9 t 0 f isVoid n false false <> None.
Proof.
  exists (t_insert t_empty (1, 0) 7 5), invokeF, (valueOnly [(0, 0)]), (0, 0). split; [apply t_wf_insert, t_wf_empty|]. split; [|split; [cbv; lia|split; [reflexivity|discriminate]]].
  split; intros b; [intros Hb|intros t Hb Ht]; do 3 (destruct b as [|b]; [cbn in *; try (split; [discriminate|reflexivity]); lia|]); cbn in Hb; lia.
Qed.
Print Assumptions C45_solver_ifds_invoke_refuted.

Example C45_ssa_case2 : let t := t_insert (t_insert t_empty (0, 1) 0 5) (0, 1) 7 5 in
  t_wf t /\ valid straightF (0, 0) /\ valueOnly [(0, 0)] (0, 0) = false /\ isTerminator straightF (0, 0) = false /\ isDbg (kindOf straightF (0, 1)) = false
  /\ after straightF (0, 0) (0, 1) /\ resultsAtSSA None 9 t 0 straightF (valueOnly [(0, 0)]) (0, 0) false true = Some [(7, 5)].
Proof.
  cbv zeta. split; [do 2 apply t_wf_insert; apply t_wf_empty|]. split; [cbv; lia|]. do 3 (split; [reflexivity|]). split; [|reflexivity]. apply en_step; [apply ex_next; cbn; lia|reflexivity].
Qed.
Example C45_ssa_case3 : let t := t_insert t_empty (2, 0) 7 5 in
  t_wf t /\ valid invokeF (0, 0) /\ isTerminator invokeF (0, 0) = true /\ (exists b, In b (targets invokeF 0) /\ length (predBlocks invokeF b) = 1)
  /\ resultsAtSSA None 9 t 0 invokeF (valueOnly [(0, 0)]) (0, 0) false true = Some [(7, 5)].
Proof.
  cbv zeta. split; [apply t_wf_insert, t_wf_empty|]. split; [cbv; lia|]. split; [reflexivity|]. split; [exists 2; cbn; auto|reflexivity].
Qed.
