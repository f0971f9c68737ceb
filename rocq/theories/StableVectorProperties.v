(** C21, C22: StableVector. *)
From Coq Require Import List Bool Arith Lia.
From Verif Require Import Assoc StableVectorModel StableVectorSpec StableVectorProofs.
Import ListNotations.

Lemma reachable {T} (os : list (op T)) l : shrinkNonempty os [] -> applyAll os [] = Some l ->
  exists v h, run os (empty, []) = Some (v, h) /\ rep l v h.
Proof. intros Hn Ha. eapply run_ok; eauto. apply rep_empty. Qed.

(** ** C21 *)

(** Every sequence of emplace_back, pop_back, pop_back_n and clear runs without
    touching memory wrongly and leaves the content an ordinary sequence has. *)
Theorem C21_is_a_sequence : forall {T} (os : list (op T)) l,
  Forall noShrink os -> applyAll os [] = Some l ->
  exists v h, run os (empty, []) = Some (v, h) /\
    size v = length l /\
    elements v h = Some l /\
    (forall i x, nth_error l i = Some x -> exists p, subscript i v = Some p /\ read p h = Some x) /\
    (forall x l', l = x :: l' -> exists p, front v = Some p /\ read p h = Some x) /\
    (forall l' x, l = l' ++ [x] -> exists p, back v = Some p /\ read p h = Some x).
Proof.
  intros T os l Hn Ha. destruct (reachable os l (noShrink_nonempty os Hn []) Ha) as (v & h & E & R).
  exists v, h. split; auto. split; [eapply rep_size; eauto|]. split; [now apply elements_ok|].
  split; [intros i x; eapply rep_index; eauto|]. split.
  - intros x l' ->. destruct (front_ok _ _ _ _ R) as (p & A & B & _). eauto.
  - intros l' x ->. destruct (back_ok _ _ _ _ R) as (p & A & B & _). eauto.
Qed.
Print Assumptions C21_is_a_sequence.

(** An element keeps its address as long as it stays in the container. *)
Theorem C21_references_are_stable : forall {T} (os1 os2 : list (op T)) l i,
  Forall noShrink os1 -> Forall noShrink os2 -> applyAll os1 [] = Some l -> stays i os2 l ->
  exists v1 h1 v2 h2 p, run os1 (empty, []) = Some (v1, h1) /\ run os2 (v1, h1) = Some (v2, h2) /\
    subscript i v1 = Some p /\ subscript i v2 = Some p.
Proof.
  intros T os1 os2 l i Hn1 Hn2 Ha Hs. destruct (reachable os1 l (noShrink_nonempty _ Hn1 []) Ha) as (v & h & E & R).
  destruct (stays_ok os2 i l v h R (noShrink_nonempty _ Hn2 l) Hs) as (v2 & h2 & E2 & A).
  assert (Hi : i < length l) by (destruct os2; apply Hs). destruct (nth_some l i Hi) as (x & Hx).
  destruct (rep_index _ _ _ _ _ R Hx) as (p & Hp & _). exists v, h, v2, h2, p. rewrite A. auto.
Qed.
Print Assumptions C21_references_are_stable.

(** Different elements have different addresses. *)
Theorem C21_addresses_are_distinct : forall {T} (os : list (op T)) l v h i j p,
  Forall noShrink os -> applyAll os [] = Some l -> run os (empty, []) = Some (v, h) ->
  i < length l -> j < length l -> subscript i v = Some p -> subscript j v = Some p -> i = j.
Proof.
  intros T os l v h i j p Hn Ha Hr. destruct (reachable os l (noShrink_nonempty _ Hn []) Ha) as (v' & h' & E & R).
  rewrite Hr in E. injection E as <- <-. now apply addr_inj with (h := h).
Qed.
Print Assumptions C21_addresses_are_distinct.

(** The pointer emplace_back returns is the address of the new element. *)
Theorem C21_emplace_back_returns_the_element : forall {T} (os : list (op T)) l v h x,
  Forall noShrink os -> applyAll os [] = Some l -> run os (empty, []) = Some (v, h) ->
  exists p v' h', emplace_back x v h = Some (p, v', h') /\ subscript (length l) v' = Some p /\ read p h' = Some x.
Proof.
  intros T os l v h x Hn Ha Hr. destruct (reachable os l (noShrink_nonempty _ Hn []) Ha) as (v' & h' & E & (ids & R)).
  rewrite Hr in E. injection E as <- <-. destruct (emplace_ok _ _ _ _ x R) as (p & v' & h' & ids' & E & R' & _ & Hp).
  exists p, v', h'. split; auto. split; auto.
  destruct (rep_index (l ++ [x]) v' h' (length l) x) as (q & Hq & Hrd); [eexists; eauto| |congruence].
  rewrite nth_error_app2, Nat.sub_diag by lia. reflexivity.
Qed.
Print Assumptions C21_emplace_back_returns_the_element.

(** A copy has the same elements in separate memory; the original is unchanged. *)
Theorem C21_copy : forall {T} (os : list (op T)) l v h,
  Forall noShrink os -> applyAll os [] = Some l -> run os (empty, []) = Some (v, h) ->
  exists v' h', copy v h = Some (v', h') /\ elements v' h' = Some l /\ elements v h' = Some l /\
    forall i j p q, i < length l -> j < length l -> subscript i v = Some p -> subscript j v' = Some q -> p <> q.
Proof.
  intros T os l v h Hn Ha Hr. destruct (reachable os l (noShrink_nonempty _ Hn []) Ha) as (v' & h' & E & R).
  rewrite Hr in E. injection E as <- <-. destruct (copy_ok _ _ _ R) as (v' & h' & E & (ids & R1 & _) & R2 & _ & D).
  exists v', h'. split; auto. split; [apply elements_ok; eexists; eauto|]. split; [now apply elements_ok|].
  intros i j p q Hi Hj Hp Hq ->. eapply D; eauto.
Qed.
Print Assumptions C21_copy.

(** Several vectors in one memory, created by default and by copying, changed
    in any order and destroyed: each behaves as its own sequence, and operator==
    compares the sequences. *)
Theorem C21_several_vectors : forall {T} (teq : T -> T -> bool) (os : list (mop T)) ls,
  (forall x y, teq x y = true <-> x = y) ->
  Forall (fun o => match o with On _ Shrink => False | _ => True end) os ->
  mapplyAll os [] = Some ls ->
  exists vs h, mrun os ([], []) = Some (vs, h) /\
    Forall2 (fun l v => elements v h = Some l) ls vs /\
    (forall i j l m v w, nth_error ls i = Some l -> nth_error ls j = Some m ->
       nth_error vs i = Some v -> nth_error vs j = Some w ->
       exists r, equal teq v w h = Some r /\ (r = true <-> l = m)).
Proof.
  intros T teq os ls Hteq Hn Ha.
  assert (Hsn : forall ls0, mshrinksNonempty os ls0).
  { clear -Hn. induction Hn as [|o os Ho Hos IH]; intros ls0; cbn; auto. split.
    - destruct o as [|? []| |]; cbn; auto.
    - destruct (mapply o ls0); auto. }
  destruct (mrun_ok os [] ls [] [] [] reps_empty Ha (Hsn [])) as (vs & h & idss & E & (L1 & L2 & R & _)).
  exists vs, h. split; auto.
  assert (Hrep : forall i l v, nth_error ls i = Some l -> nth_error vs i = Some v -> rep l v h).
  { intros i l v Hl Hv. destruct (nth_some idss i) as (ids & Hi).
    - rewrite L2. apply nth_error_Some. congruence.
    - exists ids. eapply R; eauto. }
  split.
  - clear -L1 Hrep. revert vs L1 Hrep. induction ls as [|l ls IH]; intros [|v vs] L1 Hrep; try discriminate; constructor.
    + apply elements_ok. apply (Hrep 0); reflexivity.
    + apply IH; [now injection L1|]. intros i. apply (Hrep (S i)).
  - intros i j l m v w Hl Hm Hv Hw. eapply equal_ok; eauto.
Qed.
Print Assumptions C21_several_vectors.

(** The destructor succeeds and releases every block of the vector. *)
Theorem C21_destructor_releases_memory : forall {T} (os : list (op T)) l v h,
  Forall noShrink os -> applyAll os [] = Some l -> run os (empty, []) = Some (v, h) ->
  exists h', destructor v h = Some h' /\ forall p, In p (blocks v) -> nth_error h' (fst p) = Some None.
Proof.
  intros T os l v h Hn Ha Hr. destruct (reachable os l (noShrink_nonempty _ Hn []) Ha) as (v' & h' & E & (ids & R)).
  rewrite Hr in E. injection E as <- <-. destruct (destructor_ok _ _ _ _ R) as (h' & E & _ & Z & _).
  exists h'. split; auto. intros p Hp. rewrite (r_blocks _ _ _ _ R) in Hp. apply in_map_iff in Hp as (b & <- & Hb). auto.
Qed.
Print Assumptions C21_destructor_releases_memory.

(** a non-trivial history: three blocks, popped across block boundaries and refilled *)
Definition fill (n : nat) : list (op nat) := map Emplace (seq 0 n).
Example C21_instance :
  let os := fill 70 ++ [PopN 39; Pop; Emplace 7; Emplace 8; Emplace 9; Emplace 10] in
  Forall noShrink os /\ applyAll os [] = Some (seq 0 30 ++ [7; 8; 9; 10]) /\
  stays 20 [PopN 39; Pop; Emplace 7] (seq 0 70).
Proof.
  split; [|split].
  - apply Forall_app. split; [|repeat constructor]. apply Forall_map, Forall_forall. cbn. auto.
  - vm_compute. reflexivity.
  - vm_compute. lia.
Qed.
Example C21_several_instance :
  mapplyAll ([New; New] ++ map (On 0) (fill 40) ++ [CopyOf 0; On 2 Pop; On 0 (PopN 5); Delete 1; On 1 (Emplace 3)]) []
    = Some [seq 0 35; [3]; seq 0 39].
Proof. vm_compute. reflexivity. Qed.

(** ** C22 *)

(** shrink_to_fit on a cleared vector of several blocks frees the block its
    write pointer still refers to: the next emplace_back writes to freed memory. *)
Theorem C22_shrink_to_fit_keeps_vector_usable_refuted :
  exists (os : list (op nat)) v h,
    applyAll (os ++ [Emplace 1]) [] = Some [1] /\
    run os (empty, []) = Some (v, h) /\
    run (os ++ [Emplace 1]) (empty, []) = None.
Proof.
  exists (fill 33 ++ [Clear; Shrink]). eexists _, _.
  split; [vm_compute; reflexivity|]. split; [vm_compute; reflexivity|]. vm_compute. reflexivity.
Qed.
Print Assumptions C22_shrink_to_fit_keeps_vector_usable_refuted.

(** The memory the write pointer refers to has been released at that point. *)
Theorem C22_write_pointer_dangles_refuted :
  exists (os : list (op nat)) v h p, run os (empty, []) = Some (v, h) /\ pos v = Some p /\ nth_error h (fst p) = Some None.
Proof.
  exists (fill 33 ++ [Clear; Shrink]). eexists _, _, _.
  split; [vm_compute; reflexivity|]. split; reflexivity.
Qed.
Print Assumptions C22_write_pointer_dangles_refuted.

(** If the vector is not empty whenever shrink_to_fit is called, everything
    works: content, access and the addresses of the elements. *)
Theorem C22_shrink_to_fit_of_nonempty_partial : forall {T} (os : list (op T)) l,
  shrinkNonempty os [] -> applyAll os [] = Some l ->
  exists v h, run os (empty, []) = Some (v, h) /\ size v = length l /\ elements v h = Some l /\
    (forall i x, nth_error l i = Some x -> exists p, subscript i v = Some p /\ read p h = Some x).
Proof.
  intros T os l Hn Ha. destruct (reachable os l Hn Ha) as (v & h & E & R).
  exists v, h. split; auto. split; [eapply rep_size; eauto|]. split; [now apply elements_ok|].
  intros i x; eapply rep_index; eauto.
Qed.
Print Assumptions C22_shrink_to_fit_of_nonempty_partial.

Theorem C22_shrink_to_fit_keeps_addresses_partial : forall {T} (os1 os2 : list (op T)) l i,
  shrinkNonempty os1 [] -> applyAll os1 [] = Some l -> shrinkNonempty os2 l -> stays i os2 l ->
  exists v1 h1 v2 h2 p, run os1 (empty, []) = Some (v1, h1) /\ run os2 (v1, h1) = Some (v2, h2) /\
    subscript i v1 = Some p /\ subscript i v2 = Some p.
Proof.
  intros T os1 os2 l i Hn1 Ha Hn2 Hs. destruct (reachable os1 l Hn1 Ha) as (v & h & E & R).
  destruct (stays_ok os2 i l v h R Hn2 Hs) as (v2 & h2 & E2 & A).
  assert (Hi : i < length l) by (destruct os2; apply Hs). destruct (nth_some l i Hi) as (x & Hx).
  destruct (rep_index _ _ _ _ _ R Hx) as (p & Hp & _). exists v, h, v2, h2, p. rewrite A. auto.
Qed.
Print Assumptions C22_shrink_to_fit_keeps_addresses_partial.

(** It does release memory: only the blocks up to the current one stay. *)
Theorem C22_shrink_to_fit_releases_blocks : forall {T} (os : list (op T)) l v h,
  shrinkNonempty os [] -> applyAll os [] = Some l -> l <> [] -> run os (empty, []) = Some (v, h) ->
  exists v' h', shrink_to_fit v h = Some (v', h') /\ length (blocks v') = blockIdx v + 1 /\
    forall p, In p (skipn (blockIdx v + 1) (blocks v)) -> nth_error h' (fst p) = Some None.
Proof.
  intros T os l v h Hn Ha Hl Hr. destruct (reachable os l Hn Ha) as (v0 & h0 & E & (ids & R)).
  rewrite Hr in E. injection E as <- <-. destruct (shrink_ok _ _ _ _ R (or_introl Hl)) as (v' & h' & ids' & E & R' & (n & Hids) & Hlen).
  exists v', h'. split; auto. split; [rewrite (r_blocks _ _ _ _ R'), map_length; auto|].
  eapply shrink_frees; eauto.
Qed.
Print Assumptions C22_shrink_to_fit_releases_blocks.

Example C22_instance :
  let os := fill 70 ++ [PopN 60; Shrink] ++ fill 40 ++ [Clear; Emplace 1; Shrink; Emplace 2] in
  shrinkNonempty os [] /\ applyAll os [] = Some [1; 2].
Proof. split; [vm_compute; repeat (split; [exact I|]); repeat split; discriminate|vm_compute; reflexivity]. Qed.
