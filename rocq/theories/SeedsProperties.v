(** C43: seeds from entry points. *)
From Coq Require Import String List Bool Arith Lia.
From Verif Require Import Assoc TypeHierarchyModel LLVMCFGModel LLVMCFGSpec LLVMCFGProperties SeedsModel.
Import ListNotations.
Open Scope nat_scope.

(** * What is requested *)

(** Function [i] has the given name (an empty name does not name a function). *)
Definition hasName (m : module) (name : string) (i : nat) : Prop := exists f, nth_error m i = Some f /\ fName f = name /\ name <> EmptyString.
(** Linked modules: different functions have different names, except for unnamed ones. *)
Definition distinctNames (m : module) : Prop := forall i j name, hasName m name i -> hasName m name j -> i = j.
Definition requested (m : module) (eps : list string) (i : nat) : Prop :=
  (eps = ["__ALL__"%string] /\ i < length m) \/ (eps <> ["__ALL__"%string] /\ exists name, In name eps /\ hasName m name i).
(** The first instruction of a function with a body: no skipped instruction, only skipped ones before it. *)
Definition firstInst (ign : bool) (m : module) (i : nat) (n : inst) : Prop :=
  exists f, nth_error m i = Some f /\ fBlocks f <> [] /\ fst n = 0 /\ valid (fBlocks f) n /\ skipped ign (fBlocks f) n = false
    /\ forall k, k < snd n -> skipped ign (fBlocks f) (0, k) = true.
Definition wfModule (m : module) : Prop := forall f, In f m -> fBlocks f <> [] -> wf (fBlocks f).

(** * Proofs *)

Lemma findFn_ok name m : forall k i, findFn k name m = Some i -> exists f, k <= i /\ nth_error m (i - k) = Some f /\ fName f = name.
Proof.
  induction m as [|f m IH]; intros k i; cbn [findFn]; [discriminate|]. destruct (eqb (fName f) name) eqn:E.
  - intros [= <-]. exists f. split; [lia|]. rewrite Nat.sub_diag. split; [reflexivity|]. exact (eqb_eq _ _ E).
  - intros H. destruct (IH (S k) i H) as [g [L [N F]]]. exists g. split; [lia|]. replace (i - k) with (S (i - S k)) by lia. auto.
Qed.
Lemma findFn_some name m : forall k i f, nth_error m i = Some f -> fName f = name -> exists j, findFn k name m = Some j.
Proof.
  induction m as [|g m IH]; intros k i f N F; [destruct i; discriminate|]. cbn [findFn]. destruct (eqb (fName g) name) eqn:E; [eauto|].
  destruct i as [|i]; cbn in N; [injection N as ->; apply eqb_false in E; contradiction|]. eapply IH; eauto.
Qed.
Lemma getFunction_iff m name i : distinctNames m -> getFunction m name = Some i <-> hasName m name i.
Proof.
  intros DN. unfold getFunction. split.
  - intros H. assert (NE : name <> EmptyString) by (intros ->; discriminate). replace (match name with EmptyString => None | String _ _ => findFn 0 name m end) with (findFn 0 name m) in H by (destruct name; [now elim NE|reflexivity]).
    destruct (findFn_ok name m 0 i H) as [f [_ [N F]]]. rewrite Nat.sub_0_r in N. exists f. auto.
  - intros [f [N [F NE]]]. destruct (findFn_some name m 0 i f N F) as [j J].
    replace (match name with EmptyString => None | String _ _ => findFn 0 name m end) with (findFn 0 name m) by (destruct name; [now elim NE|reflexivity]).
    rewrite J. f_equal. destruct (findFn_ok name m 0 j J) as [g [_ [N' F']]]. rewrite Nat.sub_0_r in N'. apply (DN j i name); [exists g|exists f]; auto.
Qed.

Lemma startPointsOf_iff ign m i n : wfModule m -> In n (startPointsOf ign m i) <-> fst n = i /\ firstInst ign m i (snd n).
Proof.
  intros W. unfold startPointsOf. destruct (nth_error m i) as [f|] eqn:E.
  - destruct (fBlocks f) as [|b bs] eqn:B.
    + cbn. split; [intros []|]. intros [_ [g [G [K _]]]]. congruence.
    + assert (Wf : wf (fBlocks f)) by (apply W; [eapply nth_error_In; eauto|congruence]). rewrite <- B.
      destruct (C46_start_point ign (fBlocks f) Wf) as (k & S & V & Sk & Pre & _); [congruence|]. rewrite S. cbn [map In]. split.
      * intros [<-|[]]. cbn. split; [reflexivity|]. exists f. split; [exact E|]. split; [congruence|]. cbn. auto.
      * intros [<- [g [G [_ [Z [V' [Sk' Pre']]]]]]]. assert (g = f) by congruence. subst g. left. destruct n as [a [b' k']]. cbn [fst snd] in *. subst b'.
        assert (k' = k); [|now subst]. destruct (Nat.lt_trichotomy k' k) as [K|[K|K]]; [|exact K|].
        -- rewrite (Pre k' K) in Sk'. discriminate.
        -- rewrite (Pre' k K) in Sk. discriminate.
  - split; [intros []|]. intros [_ [f [F _]]]. congruence.
Qed.

Lemma startPoints_In ign m fs n : In n (startPoints ign m fs) <-> exists i, In (Some i) fs /\ In n (startPointsOf ign m i).
Proof.
  unfold startPoints. rewrite in_flat_map. split.
  - intros [[i|] [H1 H2]]; [eauto|destruct H2].
  - intros [i [H1 H2]]. exists (Some i). auto.
Qed.

Lemma entry_In ign m eps n : distinctNames m -> wfModule m ->
  In n (entryStartPoints ign m eps) <-> requested m eps (fst n) /\ firstInst ign m (fst n) (snd n).
Proof.
  intros DN W.
  assert (ByName : eps <> ["__ALL__"%string] -> In n (startPoints ign m (map (getFunction m) eps)) <-> requested m eps (fst n) /\ firstInst ign m (fst n) (snd n)).
  { intros NA. rewrite startPoints_In. split.
    - intros [i [H1 H2]]. apply in_map_iff in H1. destruct H1 as [name [H1 H3]]. apply (startPointsOf_iff ign m i n W) in H2. destruct H2 as [<- H2].
      split; [|exact H2]. right. split; [exact NA|]. exists name. split; [exact H3|]. now apply getFunction_iff.
    - intros [[[H _]|[_ [name [H1 H2]]]] H3]; [contradiction|]. exists (fst n). split; [apply in_map_iff; exists name; split; [now apply getFunction_iff|exact H1]|].
      apply startPointsOf_iff; auto. }
  unfold entryStartPoints. destruct eps as [|ep [|ep2 eps]]; [apply ByName; discriminate| |apply ByName; discriminate].
  destruct (eqb ep "__ALL__"%string) eqn:E.
  - apply eqb_eq in E. subst ep. rewrite startPoints_In. split.
    + intros [i [H1 H2]]. apply in_map_iff in H1. destruct H1 as [j [[= ->] H1]]. apply in_seq in H1. apply (startPointsOf_iff ign m i n W) in H2. destruct H2 as [<- H2].
      split; [left; split; [reflexivity|lia]|exact H2].
    + intros [[[_ H]|[H _]] H3]; [|now elim H]. exists (fst n). split; [apply in_map_iff; exists (fst n); split; [reflexivity|apply in_seq; lia]|]. apply startPointsOf_iff; auto.
  - apply ByName. apply eqb_false in E. congruence.
Qed.

Section P.
  Context {D L : Type} `{EqDec D}.

  Lemma addSeed_find (n n' : node) (d d' : D) (v : L) (s : seeds D L) :
    afind d' (afindd [] n' (addSeed n d v s)) = if eq_dec n' n then (if eq_dec d' d then Some v else afind d' (afindd [] n' s)) else afind d' (afindd [] n' s).
  Proof.
    unfold addSeed, afindd at 1. rewrite afind_aset. destruct (eq_dec n' n) as [->|NE]; [|reflexivity]. now rewrite afind_aset.
  Qed.

  Lemma addSeeds_find zero (bot : L) ns : forall (s : seeds D L) n' d',
    afind d' (afindd [] n' (fold_left (fun s n => addSeed n zero bot s) ns s)) = if in_dec eq_dec n' ns then (if eq_dec d' zero then Some bot else afind d' (afindd [] n' s)) else afind d' (afindd [] n' s).
  Proof.
    induction ns as [|n ns IH]; intros s n' d'; cbn [fold_left]; [reflexivity|]. rewrite IH, addSeed_find.
    destruct (in_dec eq_dec n' (n :: ns)) as [I|I]; destruct (in_dec eq_dec n' ns) as [J|J]; destruct (eq_dec n' n) as [E|E]; destruct (eq_dec d' zero); try reflexivity;
      try (exfalso; apply I; cbn; auto; fail); exfalso; destruct I as [I|I]; auto.
  Qed.

  (** Exactly the first instructions of the requested functions are seeded, each with the zero fact and the bottom value and nothing else. *)
  Theorem C43_seeds_are_the_start_points : forall ign m eps (zero : D) (bot : L), distinctNames m -> wfModule m ->
    forall n d v, afind d (afindd [] n (createDefaultSeeds ign m eps zero bot)) = Some v
      <-> requested m eps (fst n) /\ firstInst ign m (fst n) (snd n) /\ d = zero /\ v = bot.
  Proof.
    intros ign m eps zero bot DN W n d v. unfold createDefaultSeeds, addSeedsFor. rewrite addSeeds_find.
    destruct (in_dec eq_dec n (entryStartPoints ign m eps)) as [I|I].
    - apply (entry_In ign m eps n DN W) in I. destruct I as [I1 I2]. destruct (eq_dec d zero) as [->|NE].
      + split; [intros [= <-]; auto|intros [_ [_ [_ ->]]]; reflexivity].
      + cbn. split; [discriminate|]. intros [_ [_ [K _]]]. contradiction.
    - cbn. split; [discriminate|]. intros [K1 [K2 _]]. elim I. apply entry_In; auto.
  Qed.

  (** Adding seeds to existing ones keeps all others. *)
  Theorem C43_other_seeds_stay : forall ign m eps (zero : D) (bot : L) s n d, distinctNames m -> wfModule m ->
    ~ (requested m eps (fst n) /\ firstInst ign m (fst n) (snd n) /\ d = zero) ->
    afind d (afindd [] n (addSeedsFor ign m eps zero bot s)) = afind d (afindd [] n s).
  Proof.
    intros ign m eps zero bot s n d DN W N. unfold addSeedsFor. rewrite addSeeds_find.
    destruct (in_dec eq_dec n (entryStartPoints ign m eps)) as [I|I]; [|reflexivity]. destruct (eq_dec d zero) as [E|E]; [|reflexivity].
    elim N. apply (entry_In ign m eps n DN W) in I. destruct I. auto.
  Qed.

  (** One entry per node and fact, whatever is added and how often; the last value wins. *)
  Inductive reachableSeeds : seeds D L -> Prop :=
  | rs_empty : reachableSeeds []
  | rs_add n d v s : reachableSeeds s -> reachableSeeds (addSeed n d v s).

  Lemma reachable_wf s : reachableSeeds s -> NoDup (akeys s) /\ forall n r, In (n, r) s -> NoDup (akeys r) /\ r <> [].
  Proof.
    induction 1 as [|n d v s R [IH1 IH2]]; [split; [apply NoDup_nil|intros n r []]|]. split; [now apply NoDup_aset|].
    intros n' r I. unfold addSeed in I. assert (F := In_afind _ _ _ (NoDup_aset n (aset d v (afindd [] n s)) s IH1) I).
    rewrite afind_aset in F. destruct (eq_dec n' n) as [->|NE].
    - injection F as <-. split.
      + apply NoDup_aset. unfold afindd. destruct (afind n s) as [r|] eqn:E; [|apply NoDup_nil]. apply (IH2 n). now apply afind_In.
      + unfold afindd. destruct (afind n s) as [[|[d0 v0] r]|]; cbn; try discriminate. destruct (eq_dec d d0); discriminate.
    - apply (IH2 n'). now apply afind_In.
  Qed.

  Lemma countAll_sum (s : seeds D L) k : fold_left (fun k e => k + length (snd e)) s k = k + list_sum (map (fun e => length (snd e)) s).
  Proof. revert k. unfold list_sum. induction s as [|e s IH]; intros k; cbn [fold_left map fold_right]; [lia|]. rewrite IH. lia. Qed.

  Theorem C43_one_entry_per_fact : forall s, reachableSeeds s ->
    (forall n d v w, In (d, v) (afindd [] n s) -> In (d, w) (afindd [] n s) -> v = w)
    /\ (forall n d v, reachableSeeds (addSeed n d v s)
         /\ (forall n' d', afind d' (afindd [] n' (addSeed n d v s)) = if eq_dec (n', d') (n, d) then Some v else afind d' (afindd [] n' s))
         /\ countAt n (addSeed n d v s) = countAt n s + (match afind d (afindd [] n s) with Some _ => 0 | None => 1 end))
    /\ (forall n, containsFor n s = true <-> countAt n s <> 0)
    /\ countAll s = list_sum (map (fun n => countAt n s) (akeys s)).
  Proof.
    intros s R. destruct (reachable_wf s R) as [N1 N2].
    assert (NR : forall n, NoDup (akeys (afindd [] n s))).
    { intros n. unfold afindd. destruct (afind n s) as [r|] eqn:E; [|apply NoDup_nil]. apply (N2 n). now apply afind_In. }
    split; [|split; [|split]].
    - intros n d v w V W. apply (In_afind _ _ _ (NR n)) in V. apply (In_afind _ _ _ (NR n)) in W. congruence.
    - intros n d v. split; [now constructor|]. split.
      + intros n' d'. rewrite addSeed_find. destruct (eq_dec n' n), (eq_dec d' d), (eq_dec (n', d') (n, d)); subst; congruence || reflexivity.
      + unfold countAt, addSeed. rewrite afind_aset_eq. change (match afind n s with Some r => length r | None => 0 end) with (match afind n s with Some r => length r | None => length (@nil (D * L)) end).
        unfold afindd. destruct (match afind n s with Some v0 => v0 | None => [] end) as [|e r] eqn:E.
        * destruct (afind n s) as [r|]; [subst r|]; reflexivity.
        * destruct (afind n s) as [r'|]; [|discriminate]. subst r'. clear. generalize (e :: r) as l. induction l as [|[k w] l IH]; cbn; [reflexivity|].
          destruct (eq_dec d k); cbn; [lia|]. now rewrite IH.
    - intros n. unfold containsFor, countAt. destruct (afind n s) as [r|] eqn:E; [|split; [discriminate|intros K; now elim K]].
      apply afind_In in E. destruct (N2 n r E) as [_ NE]. destruct r; [now elim NE|]. split; [discriminate|reflexivity].
    - unfold countAll. rewrite countAll_sum. cbn [Nat.add]. unfold akeys. rewrite map_map. f_equal. apply map_ext_in. intros [n r] I.
      unfold countAt. cbn [fst snd]. now rewrite (In_afind _ _ _ N1 I).
  Qed.

  (** Seeds given as sets hold exactly the listed facts. *)
  Theorem C43_seeds_of_sets : forall (bot : L) l n (d : D), afind d (afindd [] n (ofSets bot l)) = Some bot <-> exists ds, In (n, ds) l /\ In d ds.
  Proof.
    intros bot l n d. unfold ofSets.
    assert (In1 : forall n0 ds s, afind d (afindd [] n (fold_left (fun s d0 => addSeed n0 d0 bot s) ds s)) = Some bot <-> (n = n0 /\ In d ds) \/ afind d (afindd [] n s) = Some bot).
    { intros n0. induction ds as [|d0 ds IH]; intros s; cbn [fold_left In]; [tauto|]. rewrite IH, addSeed_find.
      destruct (eq_dec n n0) as [->|NE]; [destruct (eq_dec d d0) as [->|NE2]|]; split; intros K; intuition congruence. }
    assert (G : forall s, afind d (afindd [] n (fold_left (fun s e => fold_left (fun s d0 => addSeed (fst e) d0 bot s) (snd e) s) l s)) = Some bot <-> (exists ds, In (n, ds) l /\ In d ds) \/ afind d (afindd [] n s) = Some bot).
    { induction l as [|[n0 ds] l IH]; intros s; cbn [fold_left].
      - split; [now right|]. intros [[ds [[] _]]|K]. exact K.
      - rewrite IH, In1. cbn [fst snd In]. split.
        + intros [[ds' [K1 K2]]|[[-> K]|K]]; [left; eauto|left; eauto|now right].
        + intros [[ds' [[[= -> ->]|K1] K2]]|K]; [right; left; auto|left; eauto|auto]. }
    rewrite G. split; [intros [K|K]; [exact K|discriminate]|now left].
  Qed.
End P.
Print Assumptions C43_seeds_are_the_start_points.
Print Assumptions C43_other_seeds_stay.
Print Assumptions C43_one_entry_per_fact.
Print Assumptions C43_seeds_of_sets.

(** The functions the call graph is built from: the requested definitions, for __ALL__ only those with external linkage (or main). *)
Theorem C43_entry_functions : forall m eps i, distinctNames m ->
  In i (getEntryFunctions m eps) <->
    requested m eps i /\ (exists f, nth_error m i = Some f /\ fBlocks f <> [] /\ (eps = ["__ALL__"%string] -> fName f <> EmptyString /\ (fExternal f = true \/ fName f = "main"%string))).
Proof.
  intros m eps i DN.
  assert (Df : forall j, isDefinition m j = true <-> exists f, nth_error m j = Some f /\ fBlocks f <> []).
  { intros j. unfold isDefinition. destruct (nth_error m j) as [f|]; [|split; [discriminate|intros [f [F _]]; discriminate]].
    destruct (fBlocks f) as [|b bs] eqn:B; split.
    - discriminate.
    - intros [g [[= <-] G]]. congruence.
    - intros _. exists f. split; [reflexivity|congruence].
    - reflexivity. }
  assert (ByName : eps <> ["__ALL__"%string] -> In i (flat_map (fun ep => match getFunction m ep with Some i => if isDefinition m i then [i] else [] | None => [] end) eps) <->
    requested m eps i /\ (exists f, nth_error m i = Some f /\ fBlocks f <> [] /\ (eps = ["__ALL__"%string] -> fName f <> EmptyString /\ (fExternal f = true \/ fName f = "main"%string)))).
  { intros NA. rewrite in_flat_map. split.
    - intros [ep [E1 E2]]. destruct (getFunction m ep) as [j|] eqn:G; [|destruct E2]. destruct (isDefinition m j) eqn:I; [|destruct E2]. destruct E2 as [->|[]].
      apply (getFunction_iff m ep i DN) in G. split; [right; split; [exact NA|eauto]|]. apply Df in I. destruct I as [f [F B]]. exists f. split; [exact F|]. split; [exact B|]. intros K. contradiction.
    - intros [[[K _]|[_ [name [N1 N2]]]] [f [F [B _]]]]; [contradiction|]. exists name. split; [exact N1|].
      apply (getFunction_iff m name i DN) in N2. rewrite N2. assert (I : isDefinition m i = true) by (apply Df; eauto). rewrite I. now left. }
  unfold getEntryFunctions. destruct eps as [|ep [|ep2 eps]]; [apply ByName; discriminate| |apply ByName; discriminate].
  destruct (eqb ep "__ALL__"%string) eqn:E; [|apply ByName; apply eqb_false in E; congruence].
  apply eqb_eq in E. subst ep. rewrite filter_In, in_seq, andb_true_iff, Df. split.
  - intros [R [[f [F B]] K]]. rewrite F in K. apply andb_true_iff in K. destruct K as [K1 K2]. split; [left; split; [reflexivity|lia]|]. exists f. split; [exact F|]. split; [exact B|]. intros _.
    split; [intros Z; rewrite Z in K1; discriminate|]. apply orb_true_iff in K2. destruct K2 as [K2|K2]; [now left|right; exact (eqb_eq _ _ K2)].
  - intros [R [f [F [B K]]]]. destruct (K eq_refl) as [K1 K2]. split; [split; [lia|]; cbn [Nat.add]; apply nth_error_Some; congruence|]. split; [eauto|]. rewrite F. apply andb_true_iff. split.
    + destruct (fName f); [now elim K1|reflexivity].
    + apply orb_true_iff. destruct K2 as [K2|K2]; [now left|right]. rewrite K2. apply eqb_refl.
Qed.
Print Assumptions C43_entry_functions.

(** For named entry points seeds and call graph agree: the seeded functions are the entry functions. *)
Theorem C43_seeded_functions_are_entries : forall ign m eps, distinctNames m -> wfModule m -> eps <> ["__ALL__"%string] ->
  forall i, (exists n, In (i, n) (entryStartPoints ign m eps)) <-> In i (getEntryFunctions m eps).
Proof.
  intros ign m eps DN W NA i. rewrite C43_entry_functions by exact DN. split.
  - intros [n H]. apply (entry_In ign m eps (i, n) DN W) in H. destruct H as [R [f [F [B _]]]]. split; [exact R|]. exists f. split; [exact F|]. split; [exact B|]. intros K. contradiction.
  - intros [R [f [F [B _]]]]. assert (Wf : wf (fBlocks f)) by (apply W; [eapply nth_error_In; eauto|exact B]).
    destruct (C46_start_point ign (fBlocks f) Wf B) as (k & S & V & Sk & Pre & _). exists (0, k). apply entry_In; auto. split; [exact R|]. exists f. cbn [snd fst]. auto 8.
Qed.
Print Assumptions C43_seeded_functions_are_entries.

(** For __ALL__ they do not: a function with internal linkage is seeded but is no entry function of the call graph. *)
Theorem C43_all_internal_refuted : exists m i n, distinctNames m /\ wfModule m /\ In (i, n) (entryStartPoints true m ["__ALL__"%string])
  /\ ~ In i (getEntryFunctions m ["__ALL__"%string]).
Proof.
  exists [mkFn "helper" false [mkBlock [Plain] Ret]], 0, (0, 0). split; [|split; [|split]].
  - intros i j name [f [F _]] [g [G _]]. destruct i as [|[|i]]; cbn in F; try discriminate; destruct j as [|[|j]]; cbn in G; try discriminate; reflexivity.
  - intros f [<-|[]] _. cbn. split; [intros b Hb; destruct b; [cbn; split; [discriminate|reflexivity]|cbn in Hb; lia]|]. intros b t Hb Ht. destruct b; [destruct Ht|cbn in Hb; lia].
  - vm_compute. auto.
  - vm_compute. intuition.
Qed.
Print Assumptions C43_all_internal_refuted.

(** A module with a definition behind a debug instruction, a declaration, an unnamed function and entry points naming all of them and an unknown one. *)
Definition mS : module := [mkFn "main" true [mkBlock [DbgValue; Plain] Ret]; mkFn "puts" true []; mkFn "" false [mkBlock [Plain] Ret]; mkFn "f" false [mkBlock [Plain] Ret]].
Example C43_case : distinctNames mS /\ wfModule mS
  /\ createDefaultSeeds true mS ["main"; "puts"; "unknown"; "main"; ""]%string 0 7 = [((0, (0, 1)), [(0, 7)])]
  /\ map fst (createDefaultSeeds true mS ["__ALL__"]%string 0 7) = [(0, (0, 1)); (2, (0, 0)); (3, (0, 0))]
  /\ createDefaultSeeds true mS ["__ALL__"; "f"]%string 0 7 = [((3, (0, 0)), [(0, 7)])]
  /\ getEntryFunctions mS ["__ALL__"]%string = [0].
Proof.
  split; [|split].
  - intros i j name [f [F [F1 F2]]] [g [G [G1 G2]]].
    do 5 (destruct i as [|i]; [do 5 (destruct j as [|j]; [cbn in F, G; try discriminate; injection F as <-; injection G as <-; cbn [fName] in F1, G1; congruence|]); destruct j; discriminate|]). destruct i; discriminate.
  - intros f H B. cbn in H.
    destruct H as [<-|[<-|[<-|[<-|[]]]]]; try (now elim B); cbn.
    all: split; [intros b Hb; destruct b; [cbn; split; [discriminate|reflexivity]|cbn in Hb; lia]|]; intros b t Hb Ht; destruct b; [destruct Ht|cbn in Hb; lia].
  - repeat split; vm_compute; reflexivity.
Qed.
