(** C42: MaybeUniquePtr deletes what it owns exactly once and nothing else. *)
From Coq Require Import List Bool Arith NArith Lia.
From Verif Require Import Assoc MaybeUniquePtrModel MaybeUniquePtrSpec MaybeUniquePtrProofs.
Import ListNotations.
Open Scope N_scope.

Lemma layoutOf_fits ra a : (ra = true -> 1 <= a) -> match layoutOf ra a with Fallback => True | Packed low => 0 < low /\ low <= a end.
Proof. intros H. unfold layoutOf. destruct ra; [specialize (H eq_refl); lia|]. destruct (N.eqb_spec a 0); [exact I|lia]. Qed.

(** [a] is the logarithm of alignof(T); RequireAlignment demands alignof(T) > 1 (line 60). *)
Section P.
  Variables (ra : bool) (a : N) (asserts : bool).
  Hypothesis Ha : ra = true -> 1 <= a.
  Notation ly := (layoutOf ra a).
  Notation history := (history ly asserts a).

  (** The packed word holds the pointer and the flag: what is stored is what is read. *)
  Theorem C42_representation : forall p b, alignedTo a p ->
    exists d, dmake ly asserts p b = Some d /\ getPointer ly d = p /\ getInt ly d = b
      /\ forall b', getPointer ly (setInt ly d b') = p /\ getInt ly (setInt ly d b') = b'.
  Proof.
    intros p b A. destruct (dmake_ok ly asserts a (layoutOf_fits ra a Ha) p b A) as [d [E [S [P B]]]]. exists d. split; [exact E|]. split; [exact P|]. split; [exact B|].
    intros b'. destruct (setInt_ok ly a (layoutOf_fits ra a Ha) d b' S) as [_ [P' B']]. split; [congruence|exact B'].
  Qed.

  (** A correct client never triggers an assertion. *)
  Theorem C42_no_assertion_fails : forall ops st tr o, history ops st tr -> allowed a ops tr o -> exists st' ev, step ly asserts o st = Some (st', ev).
  Proof.
    intros ops st tr o H A. destruct (step_ok ly asserts a (layoutOf_fits ra a Ha) ops st tr o) as [st' [ev [E _]]]; eauto.
    now apply (history_inv ly asserts a (layoutOf_fits ra a Ha)).
  Qed.

  (** Exactly once: when all pointers are destroyed, an object was deleted as often as its ownership was handed over and
      not given back, which is at most once; nothing else is deleted. *)
  Theorem C42_deleted_exactly_once : forall ops st tr, history ops st tr -> (forall s, ~ alive ops s) ->
    forall o, (handedOver o tr = givenBack o tr + deletions o tr)%nat /\ (deletions o tr <= 1)%nat.
  Proof.
    intros ops st tr H D o. destruct (history_inv ly asserts a (layoutOf_fits ra a Ha) ops st tr H) as [_ L _ E O _].
    assert (N : st = []) by (destruct st as [|[s d] st]; [reflexivity|]; elim (D s); apply L; now left). subst st.
    specialize (E o). specialize (O o). cbn in *. lia.
  Qed.

  (** Before that, in every state: a deletion is of an object handed over before and not given back, and happens at most once. *)
  Theorem C42_deletes_only_what_it_owns : forall ops st tr, history ops st tr ->
    forall o, (givenBack o tr + deletions o tr <= handedOver o tr)%nat /\ (deletions o tr <= 1)%nat.
  Proof.
    intros ops st tr H o. destruct (history_inv ly asserts a (layoutOf_fits ra a Ha) ops st tr H) as [_ _ _ E O _]. specialize (E o). specialize (O o). lia.
  Qed.

  (** A pointer that owns refers to a live object, and no other pointer owns that. *)
  Theorem C42_owner_is_unique_and_alive : forall ops st tr, history ops st tr ->
    forall s d, afind s st = Some d -> owns ly asserts d = Some true ->
      getPointer ly d <> 0 /\ deletions (getPointer ly d) tr = 0%nat
      /\ forall s' d', afind s' st = Some d' -> owns ly asserts d' = Some true -> getPointer ly d' = getPointer ly d -> s' = s.
  Proof.
    intros ops st tr H s d F W. destruct (history_inv ly asserts a (layoutOf_fits ra a Ha) ops st tr H) as [ND _ G E O _].
    assert (B : forall e, owns ly asserts e = Some true -> getInt ly e = true) by (intros e; unfold owns; destruct (asserts && _ && _); congruence).
    assert (B1 : ownsN ly (getPointer ly d) d = 1%nat) by (unfold ownsN; rewrite (B d W), N.eqb_refl; reflexivity).
    assert (Q := owners_find ly (getPointer ly d) s d st F). specialize (O (getPointer ly d)).
    split; [apply (proj2 (G s d F)); auto|]. split; [lia|].
    intros s' d' F' W' P. destruct (Nat.eq_dec s' s) as [->|NE]; [reflexivity|exfalso].
    assert (X := owners_del ly (getPointer ly d) s d st F). assert (F2 : afind s' (adel s st) = Some d') by (rewrite afind_adel_neq; auto).
    assert (Q' := owners_find ly (getPointer ly d) s' d' (adel s st) F2).
    assert (B2 : ownsN ly (getPointer ly d) d' = 1%nat) by (unfold ownsN; rewrite (B d' W'), P, N.eqb_refl; reflexivity). lia.
  Qed.

  (** Handing over an object that is not yet released or destroyed keeps it alive: once the pointer with ownership is destroyed or reset the object is deleted
      in that very step, and release gives it back without deleting. *)
  Theorem C42_owner_deletes : forall ops st tr s d, history ops st tr -> afind s st = Some d -> owns ly asserts d = Some true ->
    (exists st', step ly asserts (Destroy s) st = Some (st', [Deleted (getPointer ly d)]))
    /\ (exists st', step ly asserts (ResetNull s) st = Some (st', [Deleted (getPointer ly d)]))
    /\ (exists st', step ly asserts (Release s) st = Some (st', [Released (getPointer ly d)])
          /\ exists d', afind s st' = Some d' /\ owns ly asserts d' = Some false /\ getPointer ly d' = getPointer ly d).
  Proof.
    intros ops st tr s d H F W. destruct (history_inv ly asserts a (layoutOf_fits ra a Ha) ops st tr H) as [_ _ G _ _ _]. specialize (G s d F).
    assert (B : getInt ly d = true) by (revert W; unfold owns; destruct (asserts && _ && _); congruence).
    assert (Dl := deleteOwned_ok ly asserts d G). rewrite B in Dl. cbn [step]. rewrite F, Dl, B.
    split; [eauto|]. split; [eauto|]. eexists. split; [reflexivity|]. eexists. rewrite afind_aset_eq. split; [reflexivity|].
    destruct (setInt_ok ly a (layoutOf_fits ra a Ha) d false (proj1 G)) as [_ [P' B']]. split; [|exact P'].
    unfold owns. rewrite B', andb_false_r. reflexivity.
  Qed.

  (** Pointers that do not own never delete. *)
  Theorem C42_borrower_never_deletes : forall ops st tr s d, history ops st tr -> afind s st = Some d -> owns ly asserts d = Some false ->
    (exists st', step ly asserts (Destroy s) st = Some (st', [])) /\ (exists st', step ly asserts (ResetNull s) st = Some (st', [])).
  Proof.
    intros ops st tr s d H F W. destruct (history_inv ly asserts a (layoutOf_fits ra a Ha) ops st tr H) as [_ _ G _ _ _]. specialize (G s d F).
    assert (B : getInt ly d = false) by (revert W; unfold owns; destruct (asserts && _ && _); congruence).
    assert (Dl := deleteOwned_ok ly asserts d G). rewrite B in Dl. cbn [step]. rewrite F, Dl. split; eauto.
  Qed.

  (** Move assignment exchanges the two pointers: the old object of the target is not deleted but kept by the source. *)
  Theorem C42_move_assignment_swaps : forall s f st d d', afind s st = Some d -> afind f st = Some d' ->
    exists st', step ly asserts (MoveAssign s f) st = Some (st', []) /\ afind s st' = Some d' /\ afind f st' = Some d
      /\ forall x, x <> s -> x <> f -> afind x st' = afind x st.
  Proof.
    intros s f st d d' F F'. cbn [step]. rewrite F, F'. eexists. split; [reflexivity|]. rewrite !afind_aset.
    destruct (eq_dec s f) as [->|NE]; [assert (d' = d) by congruence; subst d'|destruct (eq_dec f f) as [_|X]; [|now elim X]; destruct (eq_dec s s) as [_|X]; [|now elim X]].
    - destruct (eq_dec f f) as [_|X]; [|now elim X]. split; [reflexivity|]. split; [reflexivity|]. intros x N1 N2. rewrite !afind_aset_neq by congruence. reflexivity.
    - split; [reflexivity|]. split; [reflexivity|]. intros x N1 N2. rewrite !afind_aset_neq by congruence. reflexivity.
  Qed.
End P.
Print Assumptions C42_representation.
Print Assumptions C42_no_assertion_fails.
Print Assumptions C42_deleted_exactly_once.
Print Assumptions C42_deletes_only_what_it_owns.
Print Assumptions C42_owner_is_unique_and_alive.
Print Assumptions C42_owner_deletes.
Print Assumptions C42_borrower_never_deletes.
Print Assumptions C42_move_assignment_swaps.

(** A history: an owner, a borrower of the same object, an assignment that deletes, a move, a release and handing the object over again. *)
Definition opsC : list op :=
  [FromUnique 0 16; FromRaw 1 16 false; AssignUnique 0 32; MoveConstruct 2 0; Release 2; FromRaw 3 32 true; Default 4; MoveAssign 4 3; Destroy 0; Destroy 1; Destroy 2; Destroy 3; Destroy 4].
Definition trC : list event := [Given 16; Deleted 16; Given 32; Released 32; Given 32; Deleted 32].

Lemma history_check ly asserts al : forall ops pre st tr st' tr',
  history ly asserts al pre st tr -> run ly asserts ops st tr = Some (st', tr') ->
  (forall p o r st1 tr1, ops = p ++ o :: r -> run ly asserts p st tr = Some (st1, tr1) -> allowed al (pre ++ p) tr1 o) ->
  history ly asserts al (pre ++ ops) st' tr'.
Proof.
  induction ops as [|o ops IH]; intros pre st tr st' tr' H R A.
  - cbn in R. injection R as <- <-. now rewrite app_nil_r.
  - cbn [run] in R. destruct (step ly asserts o st) as [[st1 ev]|] eqn:E; [|discriminate].
    assert (A0 := A [] o ops st tr eq_refl eq_refl). rewrite app_nil_r in A0.
    change (o :: ops) with ([o] ++ ops). rewrite app_assoc. apply (IH (pre ++ [o]) st1 (tr ++ ev)); auto.
    + now apply (h_step ly asserts al pre st tr).
    + intros p o' r st2 tr2 -> R2. rewrite <- app_assoc. apply (A ([o] ++ p) o' r st2 tr2); [reflexivity|]. cbn [run app]. now rewrite E.
Qed.

Lemma alive_iff ops o s : alive (ops ++ [o]) s <-> creates o = Some s \/ (alive ops s /\ o <> Destroy s).
Proof. apply alive_snoc. Qed.
Fixpoint aliveB (rops : list op) (s : nat) : bool :=
  match rops with
  | [] => false
  | o :: r => match creates o with Some t => Nat.eqb s t | None => false end
              || (aliveB r s && match o with Destroy t => negb (Nat.eqb s t) | _ => true end)
  end.
Lemma aliveB_ok ops s : alive ops s <-> aliveB (rev ops) s = true.
Proof.
  induction ops as [|o ops IH] using rev_ind; [split; [intros H; inversion H as [x ? ? ? E|x ? ? ? ? E]; destruct x; discriminate|discriminate]|].
  rewrite alive_snoc, rev_app_distr. cbn [rev app aliveB]. rewrite orb_true_iff, andb_true_iff, IH. split.
  - intros [C|[H D]]; [left; rewrite C; apply Nat.eqb_refl|right]. split; [exact H|]. destruct o; try reflexivity. apply negb_true_iff, Nat.eqb_neq. congruence.
  - intros [C|[H D]]; [left; destruct (creates o) as [t|]; [apply Nat.eqb_eq in C; now subst|discriminate]|right].
    split; [exact H|]. intros ->. rewrite Nat.eqb_refl in D. discriminate.
Qed.

Example C42_case : forall asserts, history (layoutOf false 3) asserts 3 opsC [] trC /\ (forall s, ~ alive opsC s)
  /\ deletions 16 trC = 1%nat /\ deletions 32 trC = 1%nat /\ handedOver 32 trC = 2%nat.
Proof.
  intros asserts. split; [|split; [|repeat split; reflexivity]].
  - apply (history_check (layoutOf false 3) asserts 3 opsC [] [] []); [constructor|destruct asserts; vm_compute; reflexivity|].
    intros p o r st1 tr1 E R. cbn [app].
    do 13 (destruct p as [|? p];
      [injection E as <- <-; (assert (X : tr1 = snd (st1, tr1)) by reflexivity);
       (assert (Y := f_equal (fun z => match z with Some q => snd q | None => [] end) R)); cbn beta iota in Y; cbn [snd] in Y; rewrite <- Y; clear;
       constructor; [intros s [= <-]; rewrite aliveB_ok; destruct asserts; vm_compute; discriminate || (intros s K; discriminate)
                    |intros s K; apply aliveB_ok; cbn in K; repeat (destruct K as [<-|K]; [reflexivity|]); destruct K
                    |vm_compute; reflexivity
                    |intros q K; vm_compute in K; try discriminate; injection K as <-; destruct asserts; split; vm_compute; reflexivity]
      |injection E as <- E]).
    destruct p; discriminate.
  - intros s H. apply aliveB_ok in H. cbn in H. do 5 (destruct s as [|s]; [discriminate|]). discriminate.
Qed.

(** RequireAlignment with a type of alignment 1 (the documentation excludes it, nothing checks it): an object at an odd address is an assertion failure, without assertions the
    pointer is read back wrong. *)
Theorem C42_misaligned_refuted : exists p, alignedTo 0 p
  /\ dmake (layoutOf true 0) true p false = None
  /\ exists d, dmake (layoutOf true 0) false p false = Some d /\ getPointer (layoutOf true 0) d <> p.
Proof. exists 17. split; [reflexivity|]. split; [reflexivity|]. eexists. split; [vm_compute; reflexivity|]. vm_compute. discriminate. Qed.
Print Assumptions C42_misaligned_refuted.
