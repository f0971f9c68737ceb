(** C61: the type hierarchy built from debug information. *)
From Coq Require Import String List Bool Arith Lia Relations.
From Verif Require Import Assoc DIHierarchyModel DIHierarchySpec DIHierarchyProofs DIHierarchyBuild.
Import ListNotations.
#[local] Existing Instance EqDec_diname.

(** The result is found, and does not depend on the number of steps allowed. *)
Theorem C61_builds m : wellFormed m -> named m ->
  exists n h, (forall fuel, n < fuel -> build fuel m = Some h) /\ forall fuel h', build fuel m = Some h' -> h' = h.
Proof. intros W N. destruct (build_ok m W N) as (n & h & tv & A & B & _). exists n, h. split; assumption. Qed.
Print Assumptions C61_builds.

Lemma built m fuel h : wellFormed m -> named m -> build fuel m = Some h -> exists tv,
  fold_left (addV m) (classes m) ([], [], []) = (tv, classes m, NameToType h) /\ TypeToVertex h = tv /\ VertexTypes h = classes m /\
  (forall t i, afind t tv = Some i <-> nth_error (classes m) i = Some t) /\ length tv = length (classes m) /\
  (forall n, afind n (NameToType h) = find (fun t => String.eqb (getTypeName (mTy m t)) n) (classes m)) /\
  (forall i t, nth_error (classes m) i = Some t -> exists seg, subTypesOfIdx h i = t :: seg /\
        (forall x, In x (t :: seg) <-> derives m t x) /\ ~ In t seg) /\
  VTables h = map (buildVTables m tv) (seq 0 (length (classes m))) /\
  (forall x, In x (Hierarchy h) -> isClass m x).
Proof.
  intros W N B. destruct (build_ok m W N) as (n & h0 & tv & _ & Same & F & T & V & _ & S & Vt & Hi).
  apply Same in B. subst h0. exists tv.
  assert (VO : vertsOk m (fold_left (addV m) (classes m) ([], [], [])) (classes m)).
  { apply (addV_fold m (classes m) _ []); [apply vertsOk_nil|]. apply classes_nodup, W. }
  rewrite F in VO. destruct VO as (_ & X & Y & Z). auto 12.
Qed.

(** Sub-types of a class are the classes that derive from it, over any number of
    steps; other types have none. *)
Theorem C61_subtypes m fuel h t s : wellFormed m -> named m -> build fuel m = Some h ->
  (isSubType h t s = true <-> isClass m t /\ derives m t s) /\ (In s (subTypesOf h t) <-> isClass m t /\ derives m t s).
Proof.
  intros W N B. destruct (built m fuel h W N B) as (tv & _ & ET & _ & TV & _ & _ & Sub & _).
  assert (A : In s (subTypesOf h t) <-> isClass m t /\ derives m t s).
  { unfold subTypesOf. rewrite ET. destruct (afind t tv) as [i|] eqn:E.
    - apply TV in E. destruct (Sub i t E) as (seg & -> & X & _). rewrite X. split; [|intros [_ Y]; exact Y].
      intros Y. split; [|exact Y]. apply classes_in. eapply nth_error_In, E.
    - split; [intros []|]. intros [C _]. apply classes_in in C. apply In_nth_error in C. destruct C as (i & C). apply TV in C. congruence. }
  split; [|exact A]. rewrite <- A. unfold isSubType. rewrite existsb_exists. split.
  - intros (x & I & X). apply Nat.eqb_eq in X. subst. exact I.
  - intros I. exists s. split; [exact I|apply Nat.eqb_refl].
Qed.
Print Assumptions C61_subtypes.

(** The first of the sub-types is the class itself, and it is there once: print,
    which leaves out the first one, shows the proper sub-types. *)
Theorem C61_self_first m fuel h t : wellFormed m -> named m -> build fuel m = Some h -> isClass m t ->
  exists rest, subTypesOf h t = t :: rest /\ forall s, In s rest <-> derives m t s /\ s <> t.
Proof.
  intros W N B C. destruct (built m fuel h W N B) as (tv & _ & ET & _ & TV & _ & _ & Sub & _).
  apply classes_in in C. apply In_nth_error in C. destruct C as (i & C). destruct (Sub i t C) as (seg & E & X & Y).
  exists seg. unfold subTypesOf. rewrite ET, (proj2 (TV t i) C), E. split; [reflexivity|]. intros s. split.
  - intros I. split; [apply X; right; exact I|]. intros ->. contradiction.
  - intros [D Ne]. apply X in D. destruct D as [<-|D]; [contradiction|exact D].
Qed.
Print Assumptions C61_self_first.

Theorem C61_preorder m fuel h : wellFormed m -> named m -> build fuel m = Some h ->
  (forall t, hasType h t = true <-> isClass m t) /\
  (forall t, isClass m t -> isSubType h t t = true) /\
  (forall a b c, isSubType h a b = true -> isSubType h b c = true -> isSubType h a c = true) /\
  (forall a b, isSubType h a b = true -> isSubType h b a = true -> a = b).
Proof.
  intros W N B.
  assert (Sub : forall t s, isSubType h t s = true <-> isClass m t /\ derives m t s) by (intros t s; apply (C61_subtypes m fuel); assumption).
  split; [|split; [|split]].
  - intros t. destruct (built m fuel h W N B) as (tv & _ & ET & _ & TV & _). unfold hasType. rewrite ET. split.
    + destruct (afind t tv) as [i|] eqn:E; [|discriminate]. intros _. apply TV in E. apply classes_in. eapply nth_error_In, E.
    + intros C. apply classes_in in C. apply In_nth_error in C. destruct C as (i & C). rewrite (proj2 (TV t i) C). reflexivity.
  - intros t C. apply Sub. split; [exact C|apply rt_refl].
  - intros a b c X Y. apply Sub in X. apply Sub in Y. apply Sub. split; [apply X|]. eapply rt_trans; [apply X|apply Y].
  - intros a b X Y. apply Sub in X. apply Sub in Y. destruct X as [_ X], Y as [_ Y]. destruct (wf_order m W) as (rank & R).
    assert (Mono : forall a b, derives m a b -> a = b \/ rank a < rank b).
    { intros u v D. unfold derives in D. apply clos_rt_rt1n_iff in D. induction D as [u|u v w E D IH]; [left; reflexivity|].
      right. apply R in E. destruct IH as [->|IH]; lia. }
    apply Mono in X. apply Mono in Y. destruct X as [X|X]; [exact X|]. destruct Y as [Y|Y]; [congruence|lia].
Qed.
Print Assumptions C61_preorder.

(** Types are found by their identifiers. *)
Theorem C61_getType m fuel h n : wellFormed m -> named m -> build fuel m = Some h ->
  (forall t, getType h n = Some t -> isClass m t /\ key (mTy m t) = n) /\
  (getType h n = None <-> forall t, isClass m t -> key (mTy m t) <> n).
Proof.
  intros W N B. destruct (built m fuel h W N B) as (tv & _ & _ & _ & _ & _ & NT & _). unfold getType. rewrite NT. split.
  - intros t F. apply find_some in F. destruct F as [I E]. apply String.eqb_eq in E. rewrite key_getTypeName. split; [apply classes_in, I|exact E].
  - split.
    + intros F t C E. apply classes_in in C. pose proof (find_none _ _ F t C) as X. cbn in X.
      rewrite <- key_getTypeName in X. apply String.eqb_neq in X. contradiction.
    + intros H. destruct (find _ (classes m)) as [t|] eqn:F; [|reflexivity]. apply find_some in F. destruct F as [I E].
      apply String.eqb_eq in E. rewrite <- key_getTypeName in E. apply classes_in in I. exfalso. exact (H t I E).
Qed.
Print Assumptions C61_getType.

(** Slot [i] of the table of a class holds the last function that the debug
    information places there, and nothing else. *)
Theorem C61_vtables m fuel h v t i f : wellFormed m -> named m -> build fuel m = Some h ->
  nth_error (VertexTypes h) v = Some t ->
  (vtEntry h v i = Some f <-> lastDeclared m (mSubs m) t i f).
Proof.
  intros W N B E. destruct (built m fuel h W N B) as (tv & _ & _ & VT & TV & _ & _ & _ & Vt & _).
  rewrite VT in E. assert (L : v < length (classes m)) by (apply nth_error_Some; congruence).
  rewrite <- (buildVTables_nth m tv) with (v := v).
  2:{ intros a b j X Y. apply TV in X. apply TV in Y. congruence. }
  2:{ apply TV, E. }
  change (fold_left (addFunction m tv) (mSubs m) (fun _ => []) v) with (buildVTables m tv v).
  unfold vtEntry. rewrite Vt.
  replace (nth v (map (buildVTables m tv) (seq 0 (length (classes m)))) []) with (buildVTables m tv v).
  2:{ rewrite (nth_indep _ [] (buildVTables m tv 0)) by (rewrite map_length, seq_length; exact L).
      rewrite map_nth, seq_nth by exact L. reflexivity. }
  cbv zeta. destruct (Nat.ltb_spec i (length (buildVTables m tv v))) as [I|I]; [reflexivity|].
  rewrite nth_overflow by exact I. reflexivity.
Qed.
Print Assumptions C61_vtables.

(** The edges of the dot graph: from every class to all that derive from it, and
    to itself. *)
Theorem C61_dot m fuel h a b : wellFormed m -> named m -> build fuel m = Some h ->
  (In (a, b) (dotEdges h) <-> exists ta tb j, nth_error (VertexTypes h) a = Some ta /\ b = Some j /\
      nth_error (VertexTypes h) j = Some tb /\ derives m ta tb).
Proof.
  intros W N B. destruct (built m fuel h W N B) as (tv & _ & ET & VT & TV & LT & _ & Sub & _). rewrite VT.
  unfold dotEdges. rewrite ET, LT, in_flat_map.
  assert (Cl : forall t s, isClass m t -> derives m t s -> isClass m s).
  { intros t s C D. unfold derives in D. apply clos_rt_rtn1_iff in D. destruct D as [|y z E _]; [exact C|]. apply E. }
  split.
  - intros (i & I & J). apply in_map_iff in J. destruct J as (s & [= <- <-] & S). apply in_seq in I.
    destruct (nth_error (classes m) i) as [t|] eqn:E; [|apply nth_error_None in E; lia].
    destruct (Sub i t E) as (seg & Q & X & _). rewrite Q in S. apply X in S.
    assert (C : isClass m s) by (apply (Cl t); [apply classes_in; eapply nth_error_In, E|exact S]).
    apply classes_in, In_nth_error in C. destruct C as (j & C). exists t, s, j. repeat split; [apply TV, C|exact C|exact S].
  - intros (ta & tb & j & A & -> & Bj & D). exists a. split.
    + apply in_seq. assert (a < length (classes m)) by (apply nth_error_Some; congruence). lia.
    + apply in_map_iff. exists tb. split; [rewrite (proj2 (TV tb j) Bj); reflexivity|].
      destruct (Sub a ta A) as (seg & -> & X & _). apply X, D.
Qed.
Print Assumptions C61_dot.

(** Serialisation keeps the hierarchy if names are unique and the tables are
    full.  Missing: the cases below. *)
Theorem C61_json_partial m fuel h : wellFormed m -> named m -> unique m -> build fuel m = Some h ->
  (forall vt e, In vt (VTables h) -> In e vt -> exists f, e = Some f /\ f <> "__null__"%string) ->
  load m (getTypeHierarchyData m h) = Some h.
Proof.
  intros W N U B Full. destruct (built m fuel h W N B) as (tv & F & ET & VT & TV & _ & _ & _ & Vt & Hi).
  unfold load, getTypeHierarchyData. cbn [dVertexTypes dHierarchy dTransitiveDerivedIndex dVTables]. rewrite VT.
  rewrite loadType_fold.
  2:{ intros t I. apply findComposite_ok; [exact N|exact U|apply W|apply classes_in, I]. }
  rewrite F, (loadHierarchy_ok m _ U Hi). rewrite map_map.
  replace (map _ (VTables h)) with (VTables h).
  - destruct h as [a b c d e f]. cbn in *. subst. reflexivity.
  - rewrite <- map_id at 1. apply map_ext_in. intros vt I. symmetry. apply loadVTable_ok. intros e J.
    destruct (Full vt e I J) as (f & -> & Ne). exists f. split; [reflexivity|]. split; [exact Ne|].
    rewrite Vt in I. apply in_map_iff in I. destruct I as (v & <- & Iv). apply in_seq in Iv.
    destruct (nth_error (classes m) v) as [t|] eqn:E; [|apply nth_error_None in E; lia].
    apply In_nth with (d := None) in J. destruct J as (i & _ & J).
    apply (buildVTables_nth m tv) with (t := t) in J.
    + destruct J as (l1 & s & l2 & _ & (_ & _ & _ & D) & <- & _). exact D.
    + intros x y j X Y. apply TV in X. apply TV in Y. congruence.
    + apply TV, E.
Qed.
Print Assumptions C61_json_partial.

(** ** Examples *)
Open Scope string_scope.
Definition tyOf (l : list ty) (t : nat) : ty := nth t l (OtherType "").
(** 0: A, 1: typedef of A, 2: B : typedef, 3: C : A, 4: D : B, C, 5: int, 6: E *)
Definition diamond : modul := mkMod
  (tyOf [Composite ClassTag "A" "_ZTS1A" [Member];
         OtherType "TA";
         Composite StructTag "B" "_ZTS1B" [Inherits (Alias (Direct 0)); Member];
         Composite ClassTag "C" "_ZTS1C" [Inherits (Direct 0)];
         Composite ClassTag "D" "_ZTS1D" [Inherits (Direct 2); Member; Inherits (Direct 3)];
         OtherType "int"; Composite UnionTag "E" "" []])
  [4; 2; 1; 0; 3; 5; 6]
  [mkSub true 0 (Some 0) "_ZN1A1fEv"; mkSub true 1 (Some 0) "_ZN1A1gEv"; mkSub true 0 (Some 4) "_ZN1D1fEv"; mkSub false 0 None "main";
   mkSub true 1 (Some 4) "_ZN1D1gEv"]
  ["_ZN1A1fEv"; "_ZN1A1gEv"; "_ZN1D1fEv"; "main"; "_ZN1D1gEv"].
Ltac nodup := repeat (constructor; [cbn; intuition discriminate|]); constructor.
Example diamond_wf : wellFormed diamond.
Proof. apply (wfb_ok _ (fun t => t)); [nodup|reflexivity]. Qed.
Example diamond_named : named diamond.
Proof. apply namedb_ok. reflexivity. Qed.
Ltac classes_of H := apply isClass_classb in H; cbn in H; destruct H as [H ?]; repeat (destruct H as [<-|H]; [cbn in *; try discriminate|]); [..|try contradiction].
Example diamond_unique : unique diamond.
Proof.
  split.
  - intros t s C I Ne. classes_of C; cbn in I; repeat (destruct I as [<-|I]; [cbn; try contradiction; discriminate|]); contradiction.
  - intros t s tag n i es C I Ne E. classes_of C; cbn in I;
      repeat (destruct I as [<-|I]; [cbn in E |- *; try contradiction; try discriminate; inversion E; subst; split; discriminate|]); contradiction.
Qed.
Definition hOf (m : modul) : hierarchy := match build 100 m with Some h => h | None => mkH [] [] [] [] [] [] end.
Example diamond_built : build 100 diamond = Some (hOf diamond) /\
  map (subTypesOf (hOf diamond)) [0; 2; 3; 4; 6; 1] = [[0; 3; 4; 2; 4]; [2; 4]; [3; 4]; [4]; [6]; []] /\
  getType (hOf diamond) "_ZTS1C" = Some 3 /\ getType (hOf diamond) "E" = Some 6 /\ getType (hOf diamond) "C" = None /\
  VTables (hOf diamond) = [[Some "_ZN1D1fEv"; Some "_ZN1D1gEv"]; []; [Some "_ZN1A1fEv"; Some "_ZN1A1gEv"]; []; []].
Proof. vm_compute. repeat split. Qed.
Example diamond_derives : derives diamond 0 4 /\ ~ derives diamond 3 2.
Proof.
  assert (S : forall t s, isSubType (hOf diamond) t s = true <-> isClass diamond t /\ derives diamond t s).
  { intros t s. destruct (C61_subtypes diamond 100 (hOf diamond) t s diamond_wf diamond_named) as [A _]; [exact (proj1 diamond_built)|exact A]. }
  split.
  { assert (X : isSubType (hOf diamond) 0 4 = true) by (vm_compute; reflexivity). destruct (proj1 (S 0 4) X) as [_ D]. exact D. }
  intros D. assert (X : isSubType (hOf diamond) 3 2 = true).
  { apply (proj2 (S 3 2)). split; [apply isClass_classb; split; [cbn; tauto|reflexivity]|exact D]. }
  vm_compute in X. discriminate X.
Qed.
Example diamond_roundtrip : load diamond (getTypeHierarchyData diamond (hOf diamond)) = Some (hOf diamond).
Proof.
  apply (C61_json_partial diamond 100); [exact diamond_wf|exact diamond_named|exact diamond_unique|exact (proj1 diamond_built)|].
  intros vt e I J. rewrite (proj2 (proj2 (proj2 (proj2 (proj2 diamond_built))))) in I. cbn in I.
  repeat (destruct I as [<-|I]; [cbn in J; repeat (destruct J as [<-|J]; [eexists; split; [reflexivity|discriminate]|]); contradiction|]). contradiction.
Qed.

(** ** What fails *)
(** A class that overrides one of two virtual functions: its table lacks the
    inherited one, that its objects are called with. *)
(** the hierarchy that is read back *)
Definition ldOf (m : modul) : hierarchy :=
  match load m (getTypeHierarchyData m (hOf m)) with Some h => h | None => mkH [] [] [] [] [] [] end.
Definition inheriting : modul := mkMod
  (tyOf [Composite ClassTag "A" "_ZTS1A" []; Composite ClassTag "B" "_ZTS1B" [Inherits (Direct 0)]])
  [0; 1] [mkSub true 0 (Some 0) "_ZN1A1fEv"; mkSub true 1 (Some 0) "_ZN1A1gEv"; mkSub true 0 (Some 1) "_ZN1B1fEv"]
  ["_ZN1A1fEv"; "_ZN1A1gEv"; "_ZN1B1fEv"].
Theorem C61_inherited_slot_refuted : exists m h v t i f, wellFormed m /\ named m /\ build 100 m = Some h /\
  nth_error (VertexTypes h) v = Some t /\ dispatches m i t f /\ vtEntry h v i = None.
Proof.
  exists inheriting, (hOf inheriting), 1, 1, 1, "_ZN1A1gEv".
  split; [apply (wfb_ok _ (fun t => t)); [nodup|reflexivity]|]. split; [apply namedb_ok; reflexivity|].
  split; [vm_compute; reflexivity|]. split; [vm_compute; reflexivity|]. split; [|reflexivity].
  apply disp_base with (b := 0).
  - apply base_elements. split; [apply isClass_classb; split; [cbn; tauto|reflexivity]|]. exists (Direct 0). split; [left; reflexivity|reflexivity].
  - intros b' B. apply base_elements in B. destruct B as (_ & r & [[= <-]|[]] & <-). reflexivity.
  - intros s I (_ & A & B & _). cbn in I. repeat (destruct I as [<-|I]; [discriminate|]). contradiction.
  - apply disp_own. exists [mkSub true 0 (Some 0) "_ZN1A1fEv"], (mkSub true 1 (Some 0) "_ZN1A1gEv"), [mkSub true 0 (Some 1) "_ZN1B1fEv"].
    split; [vm_compute; reflexivity|]. split; [repeat split; cbn; tauto|]. split; [vm_compute; reflexivity|]. intros s [<-|[]] (_ & A & _). discriminate.
Qed.
Print Assumptions C61_inherited_slot_refuted.

(** An empty slot is read back as two: the functions behind it move. *)
Definition gap : modul := mkMod (tyOf [Composite ClassTag "A" "_ZTS1A" []]) [0] [mkSub true 1 (Some 0) "_ZN1A1gEv"] ["_ZN1A1gEv"].
Theorem C61_json_null_refuted : exists m h h', wellFormed m /\ named m /\ unique m /\ build 100 m = Some h /\
  load m (getTypeHierarchyData m h) = Some h' /\ exists f, vtEntry h 0 1 = Some f /\ vtEntry h' 0 1 = None /\ vtEntry h' 0 2 = Some f.
Proof.
  exists gap, (hOf gap), (ldOf gap). split; [apply (wfb_ok _ (fun t => t)); [nodup|reflexivity]|]. split; [apply namedb_ok; reflexivity|]. split.
  { split.
    - intros t s C I Ne. destruct C as [[<-|[]] _]. destruct I as [<-|[]]. contradiction.
    - intros t s tag n i es C I Ne. destruct C as [[<-|[]] _]. destruct I as [<-|[]]. contradiction. }
  split; [vm_compute; reflexivity|]. split; [vm_compute; reflexivity|]. exists "_ZN1A1gEv". vm_compute. auto.
Qed.
Print Assumptions C61_json_null_refuted.

(** typedef struct S S: the hierarchy is written with names, and the name is
    read back as the typedef, which is found first.  S is no sub-type of itself
    any more, and neither of its base. *)
Definition typedefed : modul := mkMod
  (tyOf [OtherType "S"; Composite StructTag "S" "_ZTS1S" [Inherits (Direct 2)]; Composite StructTag "B" "_ZTS1B" []]) [0; 1; 2] [] [].
Theorem C61_json_typedef_refuted : exists m h h', wellFormed m /\ named m /\ build 100 m = Some h /\
  load m (getTypeHierarchyData m h) = Some h' /\
  exists b s, derives m b s /\ isSubType h' b s = false /\ isSubType h' s s = false.
Proof.
  exists typedefed, (hOf typedefed), (ldOf typedefed). assert (W : wellFormed typedefed) by (apply (wfb_ok _ (fun t => 5 - t)); [nodup|reflexivity]).
  assert (N : named typedefed) by (apply namedb_ok; reflexivity).
  split; [exact W|]. split; [exact N|]. split; [vm_compute; reflexivity|]. split; [vm_compute; reflexivity|].
  exists 2, 1. split; [|vm_compute; auto].
  assert (B : build 100 typedefed = Some (hOf typedefed)) by (vm_compute; reflexivity).
  assert (X : isSubType (hOf typedefed) 2 1 = true) by (vm_compute; reflexivity).
  destruct (C61_subtypes typedefed 100 (hOf typedefed) 2 1 W N B) as [A _]. apply (proj2 (proj1 A X)).
Qed.
Print Assumptions C61_json_typedef_refuted.

(** Classes of the same name in different namespaces are mixed up: after reading
    back, x::T is a base of the class that derives from y::T only. *)
Definition namespaces : modul := mkMod
  (tyOf [Composite ClassTag "T" "_ZTSN1x1TE" [Inherits (Direct 2)]; Composite ClassTag "T" "_ZTSN1y1TE" [Inherits (Direct 3)];
         Composite ClassTag "P" "_ZTSN1x1PE" []; Composite ClassTag "Q" "_ZTSN1y1QE" []]) [0; 1; 2; 3] [] [].
Theorem C61_json_namespace_refuted : exists m h h', wellFormed m /\ named m /\
  (forall t s, isClass m t -> isClass m s -> key (mTy m t) = key (mTy m s) -> t = s) /\
  build 100 m = Some h /\ load m (getTypeHierarchyData m h) = Some h' /\
  exists q t, ~ derives m q t /\ isSubType h' q t = true.
Proof.
  exists namespaces, (hOf namespaces), (ldOf namespaces). assert (W : wellFormed namespaces) by (apply (wfb_ok _ (fun t => 5 - t)); [nodup|reflexivity]).
  assert (N : named namespaces) by (apply namedb_ok; reflexivity).
  split; [exact W|]. split; [exact N|]. split.
  { intros t s [I _] [J _] K. cbn in I, J.
    repeat (destruct I as [<-|I]; [repeat (destruct J as [<-|J]; [first [reflexivity|discriminate K]|]); contradiction|]). contradiction. }
  split; [vm_compute; reflexivity|]. split; [vm_compute; reflexivity|]. exists 3, 0. split; [|vm_compute; reflexivity].
  intros D. assert (X : isSubType (hOf namespaces) 3 0 = true).
  { assert (B : build 100 namespaces = Some (hOf namespaces)) by (vm_compute; reflexivity).
    destruct (C61_subtypes namespaces 100 (hOf namespaces) 3 0 W N B) as [A _]. apply (proj2 A). split; [|exact D].
    apply isClass_classb. split; [cbn; tauto|reflexivity]. }
  vm_compute in X. discriminate X.
Qed.
Print Assumptions C61_json_namespace_refuted.

(** C structs have no identifiers: two compile units that each have a struct of
    the same name cannot be read back. *)
Definition twoUnits : modul := mkMod (tyOf [Composite StructTag "node" "" [Member]; Composite StructTag "node" "" []]) [0; 1] [] [].
Theorem C61_json_c_structs_refuted : exists m h, wellFormed m /\ named m /\ build 100 m = Some h /\ load m (getTypeHierarchyData m h) = None.
Proof.
  exists twoUnits, (hOf twoUnits). split; [apply (wfb_ok _ (fun t => t)); [nodup|reflexivity]|]. split; [apply namedb_ok; reflexivity|].
  split; vm_compute; reflexivity.
Qed.
Print Assumptions C61_json_c_structs_refuted.

(** A struct without name and identifier, as in "static struct { int x; } s;" of
    a C file, fails an assertion. *)
Definition anonymous : modul := mkMod (tyOf [Composite StructTag "" "" [Member]]) [0] [] [].
Theorem C61_anonymous_refuted : exists m, wellFormed m /\ forall fuel, build fuel m = None.
Proof. exists anonymous. split; [apply (wfb_ok _ (fun t => t)); [nodup|reflexivity]|reflexivity]. Qed.
Print Assumptions C61_anonymous_refuted.
