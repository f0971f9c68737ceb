(** C69: library summaries (FunctionDataFlowFacts and LLVMFunctionDataFlowFacts).

    [fold_left apply' h []] and [fold_left apply h []] (FlowFactsProofs.v): the table
    after the calls h, of FunctionDataFlowFacts (whose lookups change nothing) and of
    LLVMFunctionDataFlowFacts; [known k i h l] (FlowFactsSpec.v): h says l for parameter
    i of the function k. *)
From Coq Require Import String List Bool Arith Lia Permutation.
From Verif Require Import Assoc FlowFactsModel FlowFactsSpec FlowFactsProofs.
Import ListNotations.
Local Open Scope string_scope.
Local Open Scope list_scope.

(** FunctionDataFlowFacts answers with what it was given; for functions it was given
    nothing for the answer is empty. *)
Theorem C69_lookup :
  forall (K : Type) (EK : EqDec K) (h : list (op K)) k i,
    (forall l, known k i h l -> getDataFlowFacts k i (fold_left apply' h []) = Some l) /\
    ((forall o, In o h -> ~ names k o) -> getDataFlowFacts k i (fold_left apply' h []) = Some []).
Proof.
  intros K EK h k i. split.
  - intros l H. assert (X : entry k i (fold_left apply' h []) = Some l).
    { apply (known_facts apply'); auto. }
    unfold entry, getDataFlowFacts in *. destruct (afind k (fold_left apply' h [])); [exact X|discriminate].
  - intros H. assert (X : forall h (T : table K), (forall o, In o h -> ~ names k o) -> contains k T = false -> contains k (fold_left apply' h T) = false).
    { clear. induction h as [|o h IH]; intros T H E; cbn [fold_left]; [exact E|]. apply IH; [intros o' I; apply H; now right|].
      destruct (contains k (apply' T o)) eqn:C; [|reflexivity]. apply contains_apply' in C. destruct C as [C|C]; [congruence|]. destruct (H o); [now left|exact C]. }
    specialize (X h [] H eq_refl). unfold contains, getDataFlowFacts in *. destruct (afind k (fold_left apply' h [])); [discriminate|reflexivity].
Qed.
Print Assumptions C69_lookup.

(** For a parameter it was given nothing for, of a function it was given something for,
    it dereferences the end iterator, after every history. *)
Theorem C69_unknown_parameter_refuted :
  (exists (h : list (op string)) k i, (forall l, ~ known k i h l) /\ getDataFlowFacts k i (fold_left apply' h []) = None) /\
  forall (K : Type) (EK : EqDec K) (h : list (op K)) k i,
    (exists o, In o h /\ names k o) ->
    (forall out, ~ In (InsertSet k i out) h) -> (forall f, ~ In (AddElement k i f) h) ->
    getDataFlowFacts k i (fold_left apply' h []) = None.
Proof.
  split.
  - exists [AddElement "abs" 0 Ret], "abs", 1. split; [|reflexivity]. intros l H. inversion H as [| |? ? ? H' _ _]; subst. inversion H'.
  - intros K EK h k i (o & Io & No) N1 N2.
    assert (C : forall h (T : table K), (contains k T = true \/ exists o, In o h /\ names k o) -> contains k (fold_left apply' h T) = true).
    { clear. induction h as [|o h IH]; intros T H; cbn [fold_left]; [destruct H as [H|(o & [] & _)]; exact H|]. apply IH.
      destruct H as [H|(o' & [<-|I] & Hn)]; [left; apply contains_apply'; auto|left; apply contains_apply'; auto|right; eauto]. }
    assert (E : forall h (T : table K), (forall out, ~ In (InsertSet k i out) h) -> (forall f, ~ In (AddElement k i f) h) -> entry k i T = None -> entry k i (fold_left apply' h T) = None).
    { clear. induction h as [|o h IH]; intros T N1 N2 E; cbn [fold_left]; [exact E|]. apply IH; [intros out I; apply (N1 out); now right|intros f I; apply (N2 f); now right|].
      destruct o as [k' i' out|k' i' f|k' i']; [cbn [apply' apply]; rewrite entry_insert|cbn [apply' apply]; rewrite entry_add|exact E].
      - destruct (entry k' i' T); [exact E|]. destruct (eqb k' k && (i' =? i)%nat) eqn:S; [|exact E]. apply same_pair in S. destruct S as [-> ->]. destruct (N1 out); now left.
      - destruct (eqb k' k && (i' =? i)%nat) eqn:S; [|exact E]. apply same_pair in S. destruct S as [-> ->]. destruct (N2 f); now left. }
    specialize (C h [] (or_intror (ex_intro _ o (conj Io No)))). specialize (E h [] N1 N2 eq_refl). unfold contains, entry, getDataFlowFacts in *.
    destruct (afind k (fold_left apply' h [])); [exact E|discriminate].
Qed.
Print Assumptions C69_unknown_parameter_refuted.

(** LLVMFunctionDataFlowFacts answers with what it was given, and otherwise with the
    empty set, if nobody asks for a parameter before a set is inserted for it.
    _partial: see the next theorem for lookups before. *)
Theorem C69_llvm_lookup_partial :
  forall (K : Type) (EK : EqDec K) (h : list (op K)) k i,
    (forall h1 h2 out, h = h1 ++ Lookup k i :: h2 -> ~ In (InsertSet k i out) h2) ->
    (forall l, known k i h l -> fst (getFacts k i (fold_left apply h [])) = l) /\
    ((forall l, ~ known k i h l) -> fst (getFacts k i (fold_left apply h [])) = []).
Proof.
  intros K EK h k i Ti. rewrite fst_get. split.
  - intros l H. unfold facts. rewrite (known_in_time apply (fun _ _ _ _ => eq_refl) (fun _ _ _ _ => eq_refl) (fun T j j' k i => facts_get j j' T k i)) with (l := l); auto.
    + intros T k0 i0 j j' l0 E. cbn [apply]. rewrite entry_get. destruct (eqb j k0 && (j' =? i0)%nat) eqn:S; [|exact E]. cbn [andb].
      apply same_pair in S. destruct S as [-> ->]. rewrite E. destruct (contains k0 T); reflexivity.
    + intros h1 h2 Eh out. eapply Ti; eauto.
    + intros T j j' Ne. cbn [apply]. rewrite entry_get. destruct (eqb j k && (j' =? i)%nat) eqn:S; [|reflexivity]. apply same_pair in S. destruct S as [-> ->]. congruence.
  - intros H. apply (unknown_facts apply (fun _ _ _ _ => eq_refl) (fun _ _ _ _ => eq_refl) (fun T j j' k i => facts_get j j' T k i) k i h H []). reflexivity.
Qed.
Print Assumptions C69_llvm_lookup_partial.

(** Asking changes the table: a set inserted afterwards is lost, and the function has an
    entry that nobody gave. *)
Theorem C69_asking_changes_refuted :
  exists (h : list (op string)) k i out,
    known k i (h ++ [InsertSet k i out]) out /\ out <> [] /\
    fst (getFacts k i (fold_left apply (h ++ [InsertSet k i out]) [])) = [] /\
    (forall l, ~ known k i h l) /\ In (i, []) (getFactsForFunction k (fold_left apply h [])).
Proof.
  exists [AddElement "f" 0 Ret; Lookup "f" 1], "f", 1, [Ret]. split.
  - apply kn_skip; [|discriminate|discriminate]. apply kn_skip; [|discriminate|discriminate]. apply (kn_set "f" 1 [Ret] [] []). constructor.
  - split; [discriminate|]. split; [reflexivity|]. split; [|cbn; auto]. intros l H. inversion H as [| |? ? ? H' _ _]; subst. inversion H' as [| |? ? ? H'' _ _]; subst. inversion H''.
Qed.
Print Assumptions C69_asking_changes_refuted.
(** "insert a set" inserts nothing where an element was added before. *)
Theorem C69_insert_refuted :
  exists (h : list (op string)) k i out f,
    In f out /\ forall l, getDataFlowFacts k i (fold_left apply' (h ++ [InsertSet k i out]) []) = Some l -> ~ In f l.
Proof.
  exists [AddElement "f" 0 Ret], "f", 0, [Param 1], (Param 1). split; [cbn; auto|]. intros l [= <-] [H|[]]. discriminate.
Qed.
Print Assumptions C69_insert_refuted.

(** A function is contained if something was given for it, whatever was asked. *)
Theorem C69_contains :
  forall (K : Type) (EK : EqDec K) (h : list (op K)) k,
    contains k (fold_left apply h []) = true <-> exists o, In o h /\ names k o.
Proof.
  intros K EK h k. assert (G : forall h (T : table K), contains k (fold_left apply h T) = true <-> contains k T = true \/ exists o, In o h /\ names k o).
  { clear. induction h as [|o h IH]; intros T; cbn [fold_left].
    - split; [auto|]. intros [H|(o & [] & _)]. exact H.
    - rewrite IH, contains_apply. split.
      + intros [[H|H]|(o' & I & H)]; [auto|right; exists o; cbn; auto|right; exists o'; cbn; auto].
      + intros [H|(o' & [<-|I] & H)]; [auto|auto|right; eauto]. }
  rewrite G. cbn. intuition discriminate.
Qed.
Print Assumptions C69_contains.

(** readFromFDFF gives every function of the program the facts of its name, in whatever
    order the names are visited, and no others. *)
Theorem C69_read :
  forall (K F : Type) (EK : EqDec K) (EF : EqDec F) (getFunction : K -> option F) (h : list (op K)) (T : table K) f,
    (forall k k' g, getFunction k = Some g -> getFunction k' = Some g -> k = k') ->
    Permutation (fold_left apply' h []) T ->
    let R := readFromFDFF getFunction T in
    (forall k, getFunction k = Some f -> getFactsForFunction f R = getFactsForFunction k (fold_left apply' h []) /\
       (contains f R = true <-> contains k (fold_left apply' h []) = true)) /\
    ((forall k, getFunction k <> Some f) -> contains f R = false).
Proof.
  intros K F EK EF gf h T f inj Pm R.
  assert (ND : NoDup (akeys (fold_left apply' h ([] : table K)))).
  { assert (X : forall h (T : table K), NoDup (akeys T) -> NoDup (akeys (fold_left apply' h T))); [|apply X; constructor].
    clear. induction h as [|o h IH]; intros T H; cbn [fold_left]; [exact H|]. apply IH, nodup_apply', H. }
  assert (ND' : NoDup (akeys T)) by (eapply Permutation_NoDup; [apply Permutation_map, Pm|exact ND]).
  pose proof (read_afind gf inj T ND' f) as A. fold R in A. split.
  - intros k Hk. assert (X : afind f R = afind k (fold_left apply' h [])).
    { destruct (afind f R) as [m|] eqn:E.
      - destruct (proj1 (A m) eq_refl) as (k' & Hk' & I). rewrite (inj k' k f Hk' Hk) in I. symmetry. apply In_afind; [exact ND|]. eapply Permutation_in; [apply Permutation_sym, Pm|exact I].
      - destruct (afind k (fold_left apply' h [])) as [m|] eqn:E'; [|reflexivity]. apply afind_In in E'. assert (Y : None = Some m); [|discriminate].
        apply A. exists k. split; [exact Hk|]. eapply Permutation_in; [exact Pm|exact E']. }
    unfold getFactsForFunction, contains, afindd. rewrite X. split; reflexivity.
  - intros H. unfold contains. destruct (afind f R) as [m|] eqn:E; [|reflexivity]. destruct (proj1 (A m) eq_refl) as (k & Hk & _). destruct (H k Hk).
Qed.
Print Assumptions C69_read.

(** ** The summaries of the C library *)
(** Every element of the list is found again, and every parameter found was listed. *)
Theorem C69_libc :
  forall k i, (forall f, In (k, i, f) libcCalls -> exists l, getDataFlowFacts k i libcSummary = Some l /\ In f l) /\
    (forall l f, getDataFlowFacts k i libcSummary = Some l -> In f l -> In (k, i, f) libcCalls).
Proof.
  intros k i. assert (G : forall cs (T : table string),
    (forall f, In f (facts k i (fold_left (fun T c => addElement (fst (fst c)) (snd (fst c)) (snd c) T) cs T)) <-> In f (facts k i T) \/ In (k, i, f) cs)).
  { induction cs as [|[[k' i'] f'] cs IH]; intros T f; cbn [fold_left]; [cbn; tauto|]. rewrite IH. cbn [fst snd]. unfold facts at 1. rewrite entry_add.
    destruct (eqb k' k && (i' =? i)%nat) eqn:S.
    - apply same_pair in S. destruct S as [-> ->]. rewrite in_app_iff. fold (facts k i T). cbn. intuition congruence.
    - fold (facts k i T). assert (Ne : (k', i') <> (k, i)).
      { intros [= -> ->]. assert (X : eqb k k && (i =? i)%nat = true) by (apply same_pair; auto). congruence. }
      cbn. intuition congruence. }
  assert (G' : forall f, In f (facts k i libcSummary) <-> In (k, i, f) libcCalls).
  { intros f. unfold libcSummary. rewrite G. split; [intros [H|H]; [destruct H|exact H]|intros H; right; exact H]. }
  clear G. revert G'. generalize libcCalls libcSummary. intros cs T G.
  assert (X : forall l, l <> [] -> (getDataFlowFacts k i T = Some l <-> facts k i T = l)).
  { intros l Ne. unfold getDataFlowFacts, facts, entry. destruct (afind k T) as [m|]; [destruct (afind i m)|]; split; intros H; try congruence. }
  split.
  - intros f I. assert (J : In f (facts k i T)) by (apply G; exact I). exists (facts k i T). split; [|exact J].
    apply X; [intros E; rewrite E in J; destruct J|reflexivity].
  - intros l f E I. apply X in E; [|intros ->; destruct I]. subst l. apply G in I. exact I.
Qed.
Print Assumptions C69_libc.

(** The copying functions of string.h have the flow into their buffer. *)
Theorem C69_libc_copies_partial :
  forall k i, copies k i (Param 0) -> k <> "snprintf" -> In (k, i, Param 0) libcCalls.
Proof.
  assert (X : forall k i, existsb (fun c => (if string_dec (fst (fst c)) k then true else false) && (snd (fst c) =? i)%nat && match snd c with Param 0 => true | _ => false end) libcCalls = true ->
    In (k, i, Param 0) libcCalls).
  { intros k i H. apply existsb_exists in H. destruct H as ([[k' i'] g] & I & H). cbn [fst snd] in H. destruct (string_dec k' k) as [->|]; [|discriminate].
    destruct (i' =? i)%nat eqn:E; [|discriminate]. apply Nat.eqb_eq in E. subst i'. destruct g as [[|]|]; try discriminate. exact I. }
  intros k i H Ns. remember (Param 0) as g eqn:Eg. destruct H; try (refine (X _ _ _); vm_compute; reflexivity); congruence.
Qed.
Print Assumptions C69_libc_copies_partial.
(** snprintf writes its arguments into no buffer, and asking for the third one is
    undefined; memcpy does not return its first parameter, and the data strcpy has
    copied is not in its result. *)
Theorem C69_libc_refuted :
  (forall i, 2 <= i -> copies "snprintf" i (Param 0) /\ ~ In ("snprintf", i, Param 0) libcCalls) /\
  getDataFlowFacts "snprintf" 3 libcSummary = None /\
  (forall i, i < 2 -> copies "memcpy" i Ret /\ ~ In ("memcpy", i, Ret) libcCalls) /\
  copies "strcpy" 1 Ret /\ ~ In ("strcpy", 1, Ret) libcCalls.
Proof.
  assert (X : forall k f, existsb (fun c => (if string_dec (fst (fst c)) k then true else false) &&
     match snd c, f with Ret, Ret => true | Param i, Param j => (i =? j)%nat | _, _ => false end) libcCalls = false -> forall i, ~ In (k, i, f) libcCalls).
  { intros k f H i I. assert (Y : existsb (fun c => (if string_dec (fst (fst c)) k then true else false) &&
     match snd c, f with Ret, Ret => true | Param i, Param j => (i =? j)%nat | _, _ => false end) libcCalls = true); [|congruence].
    apply existsb_exists. exists (k, i, f). split; [exact I|]. cbn [fst snd]. destruct (string_dec k k); [|contradiction]. destruct f; [apply Nat.eqb_refl|reflexivity]. }
  split; [|split; [|split; [|split]]].
  - intros i L. split; [now constructor|]. apply X. vm_compute. reflexivity.
  - vm_compute. reflexivity.
  - intros i L. split; [apply cp_result; cbn; auto|]. apply X. vm_compute. reflexivity.
  - apply cp_result; cbn; auto.
  - assert (Y : existsb (fun c => (if string_dec (fst (fst c)) "strcpy" then true else false) && (snd (fst c) =? 1)%nat && match snd c with Ret => true | _ => false end) libcCalls = false) by (vm_compute; reflexivity).
    intros I. assert (Z : existsb (fun c => (if string_dec (fst (fst c)) "strcpy" then true else false) && (snd (fst c) =? 1)%nat && match snd c with Ret => true | _ => false end) libcCalls = true); [|congruence].
    apply existsb_exists. exists ("strcpy", 1, Ret). split; [exact I|reflexivity].
Qed.
Print Assumptions C69_libc_refuted.

(** ** Cases *)
Definition hist : list (op string) := [AddElement "f" 1 Ret; InsertSet "g" 0 [Param 2]; Lookup "h" 0; AddElement "g" 0 Ret; InsertSet "g" 0 [Param 3]; AddElement "f" 1 (Param 0); Lookup "f" 1].
Example hist_known : known "f" 1 hist [Ret; Param 0] /\ known "g" 0 hist [Param 2; Ret].
Proof.
  split.
  - apply kn_elem. repeat (apply ad_skip; [|discriminate]). apply ad_elem. apply ad_skip; [constructor|discriminate].
  - apply kn_skip; [|discriminate|discriminate]. apply (kn_set "g" 0 [Param 2] _ [Ret]). apply ad_skip; [|discriminate]. apply ad_elem. repeat (apply ad_skip; [|discriminate]). constructor.
Qed.
Example hist_answers : getDataFlowFacts "f" 1 (fold_left apply' hist []) = Some [Ret; Param 0] /\ fst (getFacts "g" 0 (fold_left apply hist [])) = [Param 2; Ret] /\
  getDataFlowFacts "h" 0 (fold_left apply' hist []) = Some [] /\ contains "h" (fold_left apply hist []) = false.
Proof. vm_compute. auto. Qed.
Example hist_in_time : forall h1 h2 out, hist = h1 ++ Lookup "f" 1 :: h2 -> ~ In (InsertSet "f" 1 out) h2.
Proof.
  intros h1 h2 out E I. assert (X : In (InsertSet "f" 1 out) hist) by (rewrite E; apply in_or_app; right; now right). cbn in X. intuition discriminate.
Qed.
(** g is not in the program *)
Example hist_read : readFromFDFF (fun k => if eq_dec k "f" then Some 7 else if eq_dec k "x" then Some 8 else None) (fold_left apply' hist []) = [(7, [(1, [Ret; Param 0])])].
Proof. vm_compute. reflexivity. Qed.
Example libc_strcpy : getDataFlowFacts "strcpy" 1 libcSummary = Some [Param 0] /\ getDataFlowFacts "strcpy" 0 libcSummary = Some [Ret] /\ length libcSummary = 597.
Proof. vm_compute. auto. Qed.
