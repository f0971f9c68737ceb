(** C32: edge functions of the instruction interaction analysis. *)
From Coq Require Import Bool List Arith NArith Lia.
From Verif Require Import Assoc IIAModel IIASpec IIAProofs.
Import ListNotations.

(** ** the value lattice *)
Theorem C32_join_lub : forall a b,
  le a (joinL a b) /\ le b (joinL a b) /\ (forall c, le a c -> le b c -> le (joinL a b) c)
  /\ joinL a b = joinL b a /\ (forall c, joinL (joinL a b) c = joinL a (joinL b c)) /\ joinL a a = a
  /\ (forall s t i, a = Set_ s -> b = Set_ t -> (hasLabel (joinL a b) i <-> hasLabel a i \/ hasLabel b i)).
Proof.
  intros a b. split; [apply le_join_l|]. split; [apply le_join_r|]. split; [intro c; apply join_least|].
  split; [apply joinL_comm|]. split; [intro c; apply joinL_assoc|]. split; [apply joinL_idem|].
  intros s t i -> ->. unfold hasLabel. cbn [joinL]. split.
  - intros [u [E H]]. injection E as <-. rewrite N.lor_spec in H. apply orb_true_iff in H. destruct H; eauto.
  - intros [[u [E H]]|[u [E H]]]; injection E as <-; eexists; (split; [reflexivity|]); rewrite N.lor_spec, H; auto using orb_true_r.
Qed.
Print Assumptions C32_join_lub.

(** ** extend is composition *)
(** It never aborts, and is exact unless AllTop comes first. *)
Theorem C32_extend : forall f g, exists h, extend f g = Some h /\
  (forall x, le (apply g (apply f x)) (apply h x)) /\ (f <> AllTop -> forall x, apply h x = apply g (apply f x)).
Proof. exact extend_spec. Qed.
Print Assumptions C32_extend.
Example C32_extend_case : extend (Kill (Set_ 5)) (Add (Set_ 2)) = Some (Kill (Set_ 7)) /\ extend (Add (Set_ 1)) (Add (Set_ 2)) = Some (Add (Set_ 3)).
Proof. split; reflexivity. Qed.

Theorem C32_extend_top_refuted : exists g h x, extend AllTop g = Some h /\ apply h x <> apply g (apply AllTop x).
Proof. exists (Add (Set_ 1)), (Add (Set_ 1)), (Set_ 2). split; [reflexivity|discriminate]. Qed.
Print Assumptions C32_extend_top_refuted.

(** ** combine is an upper bound *)
(** partial: not when the identity meets a kill/replace function or is the first
    argument and the second is AllTop *)
Theorem C32_combine_partial : forall f g, exists h, combine f g = Some h /\
  (~ ((f = Id /\ (g = AllTop \/ exists r, g = Kill r)) \/ (g = Id /\ exists r, f = Kill r)) -> upperBound h f g).
Proof. exact combine_spec. Qed.
Print Assumptions C32_combine_partial.
Example C32_combine_case : combine (Kill (Set_ 1)) (Add (Set_ 2)) = Some (Add (Set_ 3))
  /\ ~ ((Kill (Set_ 1) = Id /\ (Add (Set_ 2) = AllTop \/ exists r, Add (Set_ 2) = Kill r)) \/ (Add (Set_ 2) = Id /\ exists r, Kill (Set_ 1) = Kill r)).
Proof. split; [reflexivity|]. intros [[H _]|[H _]]; discriminate. Qed.

(** The labels that flow along the other path are lost. *)
Theorem C32_combine_identity_refuted : exists r h x i,
  combine Id (Kill r) = Some h /\ combine (Kill r) Id = Some h /\ hasLabel (apply Id x) i /\ ~ hasLabel (apply h x) i.
Proof.
  exists (Set_ 0), (Kill (Set_ 0)), (Set_ 1), 0%N. split; [reflexivity|]. split; [reflexivity|].
  split; [exists 1%N; auto|]. intros [s [E H]]. injection E as <-. discriminate.
Qed.
Print Assumptions C32_combine_identity_refuted.
Theorem C32_combine_top_refuted : combine Id AllTop = Some AllTop /\ combine AllTop Id = Some Id /\ ~ upperBound AllTop Id AllTop.
Proof.
  split; [reflexivity|]. split; [reflexivity|]. intro H. destruct (H (Set_ 1)) as [[E|[E|[a [b [_ [E _]]]]]] _]; discriminate.
Qed.
Print Assumptions C32_combine_top_refuted.

(** ** stores *)
(** No edge of the store flow function makes the edge function abort ("Unhandled edge") *)
Theorem C32_store_edges_handled : forall val ptr constData const pts syn u src dst,
  (constData = true -> const = true) ->
  In dst (storeFlow val ptr constData pts syn src) ->
  exists f, storeEdge val ptr const pts syn u src dst = Some f.
Proof. exact storeEdge_total. Qed.
Print Assumptions C32_store_edges_handled.

(** After a store every location it may write has the labels of the stored value
    and those of the store, or only the latter if the value is a literal; its own
    old labels are gone. *)
Theorem C32_store_labels : forall val ptr constData const pts u src dst x f,
  (constData = true -> const = true) -> val <> 0 -> dst <> 0 -> ~ In val (ptr :: pts) ->
  (dst = ptr \/ In dst pts) ->
  In dst (storeFlow val ptr constData pts false src) -> storeEdge val ptr const pts false u src dst = Some f ->
  (src = val /\ apply f x = joinL x u) \/ (src = 0 /\ constData = true /\ apply f x = u).
Proof. exact store_labels. Qed.
Print Assumptions C32_store_labels.
Example C32_store_case :
  storeFlow 3 4 false [5;6] false 3 = [3;4;5;6] /\ storeFlow 3 4 false [5;6] false 5 = []
  /\ storeEdge 3 4 false [5;6] false (Set_ 1) 3 6 = Some (Add (Set_ 1)) /\ storeEdge 3 4 false [5;6] false (Set_ 1) 9 9 = Some Id.
Proof. repeat split; reflexivity. Qed.

(** "Here, we are unsound": a location the store only may write loses its labels *)
Theorem C32_weak_update_refuted : exists val ptr pts loc, In loc pts /\ loc <> ptr /\ storeFlow val ptr false pts false loc = [].
Proof. exists 3, 4, [5;6], 6. cbn. intuition discriminate. Qed.
Print Assumptions C32_weak_update_refuted.

(** ** field-sensitive facts *)
(** The field descriptor is the first K accesses seen from the base *)
Theorem C32_fields_k_limited : forall A k (chain : list A), 1 <= k -> createFields k chain = firstn k (rev chain).
Proof. exact createFields_spec. Qed.
Print Assumptions C32_fields_k_limited.
Example C32_fields_case : createFields 2 [1;2;3;4] = [4;3].
Proof. reflexivity. Qed.

(** Facts that denote different fields are equal *)
Theorem C32_fact_equality_refuted : exists a b, factEqb a b = true /\ a <> b /\ base a = base b /\ map gidx (fields a) <> map gidx (fields b).
Proof.
  exists (mkFact 1 [mkGep 0 [0;0]]), (mkFact 1 [mkGep 0 [0;1]]). repeat split; discriminate.
Qed.
Print Assumptions C32_fact_equality_refuted.
