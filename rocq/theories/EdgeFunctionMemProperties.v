(** Theorems about the memory management of EdgeFunctions (claim C49). *)
From Coq Require Import List Bool Arith NArith Lia.
From Verif Require Import Assoc EdgeFunctionMemModel EdgeFunctionMemSpec EdgeFunctionMemProofs.
Import ListNotations.

Section T.
  Variable small : nat -> bool.
  Variable teq : tree -> tree -> bool.
  Variable byValue : nat -> bool.
  Variable cacheTy : nat -> nat.
  Hypothesis teq_refl : forall t, teq t t = true.
  Hypothesis teq_sym : forall t t', teq t t' = teq t' t.

  Let reachable st := exists os, run small teq byValue cacheTy os init = Some st.
  Lemma reach_inv st : reachable st -> Inv small teq cacheTy [] st.
  Proof using teq_refl teq_sym. intros (os & R). eapply run_inv; eauto using inv_init. Qed.

  (** After any history every operation whose obligations the client meets runs without undefined behaviour, and no other one does. *)
  Theorem C49_no_undefined_behaviour st o :
    (exists os, run small teq byValue cacheTy os init = Some st) ->
    (clientOk small cacheTy o st <-> exists st', step small teq byValue cacheTy o st = Some st').
  Proof using teq_refl teq_sym.
    intros R. pose proof (reach_inv st R) as I. split.
    - intros K. destruct (step_correct small teq byValue cacheTy teq_refl teq_sym o st I K) as (st' & E & _). eauto.
    - intros (st' & E). eapply step_client; eauto.
  Qed.

  (** Every operation acts on the slots as on values: sharing, reference counts and caches cannot be seen in the values. *)
  Theorem C49_value_semantics st o st' :
    (exists os, run small teq byValue cacheTy os init = Some st) -> step small teq byValue cacheTy o st = Some st' ->
    valueStep small teq o (valuesOf st) (valuesOf st') /\ (forall s, live s st' -> valuesOf st' s <> None).
  Proof using teq_refl teq_sym.
    intros R E. pose proof (reach_inv st R) as I.
    destruct (step_correct small teq byValue cacheTy teq_refl teq_sym o st I (step_client _ _ _ _ _ _ _ E)) as (s1 & E1 & I1 & V).
    assert (s1 = st') by congruence. subst s1. split; auto. intros s L. unfold valuesOf. unfold live in L.
    destruct (afind s (slots st')) as [h|] eqn:F; [|congruence]. destruct (inv_read _ _ _ _ st' h I1 (slot_ok _ _ _ _ _ _ _ I1 F)) as (t & Q). congruence.
  Qed.

  (** The reference count of an object is the number of EdgeFunctions that refer to it. *)
  Theorem C49_reference_counts_exact st a o :
    (exists os, run small teq byValue cacheTy os init = Some st) -> afind a (heap st) = Some o ->
    oRc o = length (filter (refersTo a) (everything st)).
  Proof using teq_refl teq_sym.
    intros R F. pose proof (reach_inv st R) as I. exact (proj1 (I_rc _ _ _ _ _ I a o F)).
  Qed.

  (** No object is deleted too early and none too late. *)
  Theorem C49_alive_iff_needed st a :
    (exists os, run small teq byValue cacheTy os init = Some st) -> (afind a (heap st) <> None <-> needed st a).
  Proof using teq_refl teq_sym. intros R. eapply inv_needed. now apply reach_inv. Qed.

  (** When the client's EdgeFunctions are gone, so are all objects, and the caches are empty. *)
  Theorem C49_nothing_left st c :
    (exists os, run small teq byValue cacheTy os init = Some st) -> slots st = [] -> heap st = [] /\ afindd [] c (caches st) = [].
  Proof using teq_refl teq_sym.
    intros R E. pose proof (reach_inv st R) as I.
    assert (forall a, afind a (heap st) = None) as N.
    { intros a. destruct (afind a (heap st)) as [o|] eqn:F; auto. exfalso.
      assert (needed st a) as X by (eapply inv_needed; eauto; congruence). clear F o.
      induction X as [s ty q a F|p o ty q a X IH F Y]; auto. rewrite E in F. discriminate. }
    split.
    - destruct (heap st) as [|[a o] l]; auto. specialize (N a). cbn in N. destruct (eq_dec a a); congruence.
    - destruct (afindd [] c (caches st)) as [|b l] eqn:C; auto. exfalso.
      assert (In b (entries c st)) as B by (unfold entries; rewrite C; now left).
      destruct (proj1 (I_cin _ _ _ _ _ I c b) B) as (o & F & _). rewrite N in F. discriminate.
  Qed.

  (** A cache holds exactly the living objects created with it, each once under its value. *)
  Theorem C49_cache_content st c b :
    (exists os, run small teq byValue cacheTy os init = Some st) ->
    (In b (afindd [] c (caches st)) <-> exists o, afind b (heap st) = Some o /\ oCache o = Some c).
  Proof using teq_refl teq_sym. intros R. exact (I_cin _ _ _ _ _ (reach_inv st R) c b). Qed.

  (** Equal functions of one cache are the same object; the cache is the one getCacheOrNull reports. *)
  Theorem C49_cached_functions_are_singletons st s s' h h' c t t' :
    (exists os, run small teq byValue cacheTy os init = Some st) ->
    afind s (slots st) = Some h -> afind s' (slots st) = Some h' ->
    getCacheOrNull st h = Some (Some c) -> getCacheOrNull st h' = Some (Some c) ->
    read st h = Some t -> read st h' = Some t' -> teq t t' = true -> referenceEquals h h' = true.
  Proof using teq_refl teq_sym.
    intros R F F' G G' Rt Rt' T. pose proof (reach_inv st R) as I.
    destruct h as [|ty d p|ty [|] a]; try discriminate. destruct h' as [|ty' d' p'|ty' [|] a']; try discriminate.
    destruct (slot_ok _ _ _ _ _ _ _ I F) as (o & Fo & To & _). destruct (slot_ok _ _ _ _ _ _ _ I F') as (o' & Fo' & To' & _).
    cbn in G, G'. rewrite Fo in G. rewrite Fo' in G'. injection G as G. injection G' as G'.
    unfold read in Rt, Rt'. rewrite (readH_handle _ _ _ _ 0 false) in Rt. rewrite (readH_handle _ _ _ _ 0 false) in Rt'.
    pose proof (inv_cached_same small teq cacheTy st c a a' o o' 0 false t t' _ _ I Fo Fo' G G' Rt Rt' T) as <-.
    assert (o = o') by congruence. subst o'. rewrite <- To, <- To'.
    apply andb_true_iff. split; apply eqb_refl.
  Qed.

  (** operator== is equality of class and value, in spite of its comparison of pointers first. *)
  Theorem C49_equality st s s' h h' t t' :
    (exists os, run small teq byValue cacheTy os init = Some st) ->
    afind s (slots st) = Some h -> afind s' (slots st) = Some h' -> read st h = Some t -> read st h' = Some t' ->
    equals teq st h h' = Some (eqb (classOf h) (classOf h') && teq t t').
  Proof using teq_refl teq_sym.
    intros R F F' Rt Rt'. pose proof (reach_inv st R) as I. unfold equals.
    destruct (eqb (classOf h) (classOf h')) eqn:C; [|reflexivity]. apply eqb_eq in C. cbn [negb andb].
    destruct h as [|ty d p|ty q a].
    - destruct h'; try discriminate. cbn in Rt, Rt'. injection Rt as <-. injection Rt' as <-. now rewrite teq_refl.
    - destruct (eqb (wordOf (HSmall ty d p)) (wordOf h')) eqn:W; [|now rewrite Rt, Rt'].
      apply eqb_eq in W. destruct h' as [|ty' d' p'|ty' q' a']; try discriminate. cbn in *. injection W as -> ->. injection C as ->.
      injection Rt as <-. injection Rt' as <-. now rewrite teq_refl.
    - destruct (eqb (wordOf (HHeap ty q a)) (wordOf h')) eqn:W; [|now rewrite Rt, Rt'].
      apply eqb_eq in W. destruct h' as [|ty' d' p'|ty' q' a']; try discriminate. cbn in W. injection W as ->.
      unfold read in Rt, Rt'. rewrite (readH_handle _ _ _ _ ty' q') in Rt. rewrite Rt in Rt'. injection Rt' as <-. now rewrite teq_refl.
  Qed.
End T.
Print Assumptions C49_no_undefined_behaviour.
Print Assumptions C49_value_semantics.
Print Assumptions C49_reference_counts_exact.
Print Assumptions C49_alive_iff_needed.
Print Assumptions C49_nothing_left.
Print Assumptions C49_cache_content.
Print Assumptions C49_cached_functions_are_singletons.
Print Assumptions C49_equality.

(** ** A concrete instance: structural equality *)
Fixpoint treeEq (t t' : tree) : bool :=
  match t, t' with
  | TNull, TNull => true
  | TSmall a d, TSmall a' d' => Nat.eqb a a' && N.eqb d d'
  | TNode a d l, TNode a' d' l' =>
      Nat.eqb a a' && N.eqb d d' && (fix go l l' := match l, l' with [], [] => true | x :: r, y :: r' => treeEq x y && go r r' | _, _ => false end) l l'
  | _, _ => false
  end.
Section Ind.
  Variable P : tree -> Prop.
  Hypothesis HN : P TNull.
  Hypothesis HS : forall a d, P (TSmall a d).
  Hypothesis HT : forall a d l, Forall P l -> P (TNode a d l).
  Fixpoint tree_ind' (t : tree) : P t :=
    match t with
    | TNull => HN
    | TSmall a d => HS a d
    | TNode a d l => HT a d l ((fix go l := match l return Forall P l with [] => Forall_nil P | x :: r => Forall_cons x (tree_ind' x) (go r) end) l)
    end.
End Ind.
Lemma treeEq_refl t : treeEq t t = true.
Proof.
  induction t as [|a d|a d l IH] using tree_ind'; cbn; rewrite ?Nat.eqb_refl, ?N.eqb_refl; auto. cbn.
  induction IH as [|x r H IH IH2]; auto. now rewrite H.
Qed.
Lemma treeEq_sym t : forall t', treeEq t t' = treeEq t' t.
Proof.
  induction t as [|a d|a d l IH] using tree_ind'; intros [|a' d'|a' d' l']; cbn; auto.
  - now rewrite Nat.eqb_sym, N.eqb_sym.
  - rewrite Nat.eqb_sym, N.eqb_sym. f_equal. revert l'. induction IH as [|x r H IH IH2]; intros [|y r']; auto. now rewrite H, IH2.
Qed.

(** class 0 is small, class 1 a composer with two members in cache 1, class 2 an ordinary large class *)
Definition smallE (ty : nat) : bool := Nat.eqb ty 0.
Definition ct (c : nat) : nat := c.
Definition runE os := run smallE treeEq (fun _ => false) ct os init.

(** two composers over the same members in one cache, made separately, then one slot is overwritten *)
Definition history : list op :=
  [Make 0 0 7 []; Make 1 2 5 []; MakeCached 2 1 0 [0; 1] 1 0; MakeCached 3 1 0 [0; 1] 1 0; Copy 4 2; AssignNull 1; Move 5 3; Assign 2 0].

Example C49_example_history : exists st, runE history = Some st /\
  map (fun e => (fst e, oRc (snd e))) (heap st) = [(0, 1); (1, 2)] /\ caches st = [(1, [1])] /\
  valuesOf st 4 = Some (TNode 1 0 [TSmall 0 7; TNode 2 5 []]) /\ valuesOf st 5 = valuesOf st 4 /\ valuesOf st 3 = Some TNull /\ valuesOf st 2 = Some (TSmall 0 7).
Proof. eexists. split; [vm_compute; reflexivity|]. repeat split. Qed.

(** the hypotheses of the singleton theorem are met by slots 4 and 5, which were made by different constructions *)
Example C49_example_singleton : exists st h h', runE history = Some st /\ afind 4 (slots st) = Some h /\ afind 5 (slots st) = Some h' /\
  getCacheOrNull st h = Some (Some 1) /\ getCacheOrNull st h' = Some (Some 1) /\ referenceEquals h h' = true.
Proof.
  do 3 eexists. split; [vm_compute; reflexivity|]. repeat split.
Qed.
Example C49_example_clientOk : exists st, runE history = Some st /\ clientOk smallE ct (MakeCached 9 1 3 [4; 4] 1 0) st /\ ~ clientOk smallE ct (Destroy 9) st.
Proof.
  eexists. split; [vm_compute; reflexivity|]. split.
  - split; [reflexivity|]. split; [reflexivity|]. split; [discriminate|]. intros k [<- | [<- | []]]; discriminate.
  - intros K. now apply K.
Qed.
(** destruction of the last slots deletes the composer, then its members *)
Example C49_example_all_gone : exists st, runE (history ++ map Destroy [0; 1; 2; 3; 4; 5]) = Some st /\ slots st = [] /\ heap st = [] /\ caches st = [(1, [])].
Proof. eexists. split; [vm_compute; reflexivity|]. repeat split. Qed.
Definition stE : state := Eval vm_compute in match runE history with Some st => st | None => init end.
Lemma stE_run : run smallE treeEq (fun _ => false) ct history init = Some stE.
Proof. vm_compute. reflexivity. Qed.
Example C49_example_alive : exists st, runE history = Some st /\ needed st 0 /\ ~ needed st 2.
Proof.
  exists stE. split; [exact stE_run|]. split.
  - eapply needed_kid with (p := 1); [eapply needed_slot with (s := 4); reflexivity | reflexivity|]. right. now left.
  - intros N. apply (proj2 (C49_alive_iff_needed smallE treeEq (fun _ => false) ct treeEq_refl treeEq_sym stE 2 (ex_intro _ history stE_run))) in N. now apply N.
Qed.

(** ** What does not hold *)

(** getHashCode of a class without std::hash and hash_value hashes the pointer (EF.h:740): two functions that operator== finds equal can
    have different hash codes. *)
Theorem C49_hash_agrees_with_equality_refuted : exists st h h' hv hw,
  runE [Make 0 2 5 []; Make 1 2 5 []] = Some st /\ afind 0 (slots st) = Some h /\ afind 1 (slots st) = Some h' /\
  equals treeEq st h h' = Some true /\ hashOf (fun _ => false) hv hw st h <> hashOf (fun _ => false) hv hw st h'.
Proof.
  eexists _, _, _, (fun _ => 0%N), (fun w _ => match w with (_, _, Some a) => N.of_nat a | _ => 0%N end).
  split; [vm_compute; reflexivity|]. split; [reflexivity|]. split; [reflexivity|]. split; [reflexivity|]. vm_compute. discriminate.
Qed.
Print Assumptions C49_hash_agrees_with_equality_refuted.

(** Where the class has a hash function that agrees with its operator==, the hash codes agree. *)
Theorem C49_hash_of_hashable_classes small teq byValue cacheTy hashable hv hw st s s' h h' :
  (forall t, teq t t = true) -> (forall t t', teq t t' = teq t' t) -> (forall t t', teq t t' = true -> hv t = hv t') ->
  (exists os, run small teq byValue cacheTy os init = Some st) ->
  afind s (slots st) = Some h -> afind s' (slots st) = Some h' -> (forall ty, classOf h = Some ty -> hashable ty = true) ->
  equals teq st h h' = Some true -> hashOf hashable hv hw st h = hashOf hashable hv hw st h'.
Proof.
  intros Rf Sy Hv R F F' Ha E. pose proof (reach_inv small teq byValue cacheTy Rf Sy st R) as I.
  destruct (inv_read _ _ _ _ st h I (slot_ok _ _ _ _ _ _ _ I F)) as (t & Q). destruct (inv_read _ _ _ _ st h' I (slot_ok _ _ _ _ _ _ _ I F')) as (t' & Q').
  rewrite (C49_equality small teq byValue cacheTy Rf Sy st s s' h h' t t' R F F' Q Q') in E. injection E as E. apply andb_prop in E as [C T].
  apply eqb_eq in C. unfold hashOf. rewrite Q, Q'. cbn. rewrite (Hv t t' T).
  destruct h as [|ty d p|ty q a], h' as [|ty' d' p'|ty' q' a']; try discriminate; auto; injection C as <-; now rewrite (Ha ty eq_refl).
Qed.
Print Assumptions C49_hash_of_hashable_classes.
Example C49_example_hash : exists st h h', runE [Make 0 2 5 []; Make 1 2 5 []] = Some st /\ afind 0 (slots st) = Some h /\ afind 1 (slots st) = Some h' /\
  equals treeEq st h h' = Some true /\ referenceEquals h h' = false.
Proof. do 3 eexists. split; [vm_compute; reflexivity|]. repeat split. Qed.

(** The cached constructor of a small class leaves the bytes of the pointer that the object does not fill uninitialised (EF.h:300): copies of
    the same small function may differ for referenceEquals, and in the hash code of a class that is not hashable. *)
Theorem C49_small_cached_reference_equality_refuted : exists st h h',
  runE [MakeCached 0 0 7 [] 0 1; MakeCached 1 0 7 [] 0 2] = Some st /\ afind 0 (slots st) = Some h /\ afind 1 (slots st) = Some h' /\
  equals treeEq st h h' = Some true /\ referenceEquals h h' = false.
Proof. do 3 eexists. split; [vm_compute; reflexivity|]. repeat split. Qed.
Print Assumptions C49_small_cached_reference_equality_refuted.

(** Without such padding, and with the ordinary constructor in any case, small functions are reference-equal exactly if class and bytes agree. *)
Theorem C49_small_reference_equality ty d ty' d' pad :
  referenceEquals (HSmall ty d pad) (HSmall ty' d' pad) = true <-> ty = ty' /\ d = d'.
Proof.
  unfold referenceEquals. cbn [classOf wordOf]. rewrite andb_true_iff, !eqb_true. split; [intros [E E2]; split; congruence | intros [-> ->]; auto].
Qed.
Print Assumptions C49_small_reference_equality.

(** operator<, "arbitrary partial ordering" (EF.h:544), is not transitive: it compares addresses unless the values are equal. With objects 0 and 2 equal
    and addresses in the order of allocation: 0 < 1 and 1 < 2, but not 0 < 2. *)
Theorem C49_order_transitive_refuted : exists st h0 h1 h2 num,
  runE [Make 0 2 5 []; Make 1 2 6 []; Make 2 2 5 []] = Some st /\
  afind 0 (slots st) = Some h0 /\ afind 1 (slots st) = Some h1 /\ afind 2 (slots st) = Some h2 /\
  less treeEq num st h0 h1 = Some true /\ less treeEq num st h1 h2 = Some true /\ less treeEq num st h0 h2 = Some false.
Proof.
  do 4 eexists. exists (fun h => match h with HHeap ty _ a => (N.of_nat a, N.of_nat ty) | _ => (0%N, 0%N) end).
  split; [vm_compute; reflexivity|]. repeat split.
Qed.
Print Assumptions C49_order_transitive_refuted.

(** It is irreflexive and asymmetric. *)
Theorem C49_order_asymmetric small teq byValue cacheTy num st s s' h h' b :
  (forall t, teq t t = true) -> (forall t t', teq t t' = teq t' t) ->
  (exists os, run small teq byValue cacheTy os init = Some st) ->
  afind s (slots st) = Some h -> afind s' (slots st) = Some h' -> less teq num st h h' = Some true -> less teq num st h' h = Some b -> b = false.
Proof.
  intros Rf Sy R F F' L L'. unfold less in *. destruct (equals teq st h h') as [[|]|]; try discriminate.
  destruct (equals teq st h' h) as [[|]|]; try discriminate; [congruence|].
  destruct (num h) as [e v], (num h') as [e' v']. injection L as L. injection L' as <-.
  apply orb_prop in L. apply orb_false_iff. destruct L as [L | L].
  - apply N.ltb_lt in L. split; [apply N.ltb_ge; lia|]. destruct (N.eqb_spec e' e); [lia | reflexivity].
  - apply andb_prop in L as [L1 L2]. apply N.eqb_eq in L1. apply N.ltb_lt in L2. subst e'. split; [apply N.ltb_irrefl|].
    rewrite N.eqb_refl. cbn. apply N.ltb_ge. lia.
Qed.
Print Assumptions C49_order_asymmetric.

(** The reflexivity of operator== is needed: for a class that ByConstRef passes by value and whose operator== is not reflexive (say, it compares
    floating-point numbers), the cache keeps the address of a deleted object, and the next lookup reads it. *)
Theorem C49_irreflexive_equality_refuted : exists teq byValue os st,
  (forall t t', teq t t' = teq t' t) /\ run smallE teq byValue ct os init = Some st /\
  clientOk smallE ct (MakeCached 1 2 5 [] 2 0) st /\ step smallE teq byValue ct (MakeCached 1 2 5 [] 2 0) st = None.
Proof.
  exists (fun _ _ => false), (fun _ => true), [MakeCached 0 2 5 [] 2 0; Destroy 0]. eexists. split; [reflexivity|].
  split; [vm_compute; reflexivity|]. split; [|reflexivity]. split; [reflexivity|]. split; [reflexivity|]. split; [discriminate|]. intros k [].
Qed.
Print Assumptions C49_irreflexive_equality_refuted.
