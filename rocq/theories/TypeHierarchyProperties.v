(** C39: LLVMTypeHierarchy. *)
From Coq Require Import String List Bool Arith Relations Permutation.
From Verif Require Import Assoc TypeHierarchyModel TypeHierarchySpec TypeHierarchyProofs TypeHierarchyJsonProofs.
Import ListNotations.
Open Scope string_scope.

Section P.
  Variable nm : nat -> string.
  Variable demangle : string -> string.

  (** For every module whose names follow the naming scheme, the sub types of a class are the class
      and everything derived from it, directly or indirectly; unknown types have no sub types. *)
  Theorem C39_subtypes_partial : forall m cls, named nm demangle m cls ->
    forall t s, In s (getSubTypes (build nm demangle m) t) <-> (In t (mTypes m) /\ derived m cls t s).
  Proof.
    intros m cls N t s. destruct (in_dec Nat.eq_dec t (mTypes m)) as [I|I].
    - rewrite build_sub by exact I. unfold derived. rewrite (rt_iff _ (directBase m cls)); [tauto|]. intros. now apply refE_direct.
    - rewrite build_unknown by exact I. split; [intros []|intros [H _]; now elim I].
  Qed.

  Theorem C39_isSubType_partial : forall m cls, named nm demangle m cls ->
    forall t s, isSubType (build nm demangle m) t s = true <-> (In t (mTypes m) /\ derived m cls t s).
  Proof. intros m cls N t s. unfold isSubType. rewrite mem_true. now apply C39_subtypes_partial. Qed.

  (** Without any assumption on names: sub types are closed under derivation. *)
  Theorem C39_preorder : forall m, let h := build nm demangle m in
    (forall t, In t (mTypes m) -> isSubType h t t = true)
    /\ (forall t u v, isSubType h t u = true -> isSubType h u v = true -> isSubType h t v = true)
    /\ (forall t s, isSubType h t s = true -> In t (mTypes m) /\ In s (mTypes m))
    /\ (forall t, hasType h t = true <-> In t (mTypes m))
    /\ NoDup (getAllTypes h).
  Proof.
    intros m h. unfold isSubType, hasType.
    assert (D : forall t s, mem s (getSubTypes h t) = true <-> (In t (mTypes m) /\ clos_refl_trans nat (refE nm demangle m) t s)).
    { intros t s. rewrite mem_true. destruct (in_dec Nat.eq_dec t (mTypes m)) as [I|I].
      - unfold h. rewrite build_sub by exact I. tauto.
      - unfold h. rewrite build_unknown by exact I. split; [intros []|intros [H _]; now elim I]. }
    split; [intros t T; apply D; split; [exact T|apply rt_refl]|].
    split; [intros t u v A B; apply D in A, B; destruct A, B; apply D; split; [assumption|]; eapply rt_trans; eassumption|].
    split; [intros t s A; apply D in A; destruct A as [A B]; split; [exact A|]; apply clos_rt_rtn1 in B; destruct B as [|y z [Y _] _]; assumption|].
    split; [intros t; rewrite mem_true; apply build_verts|].
    unfold getAllTypes, h, build, cacheReachable. cbn [tVerts]. now destruct (construct_ok nm demangle m) as [_ [_ [_ X]]].
  Qed.

  (** getType finds a type of that name if there is one *)
  Theorem C39_getType : forall m n,
    (forall t, getType nm (build nm demangle m) n = Some t -> In t (mTypes m) /\ nm t = n)
    /\ (getType nm (build nm demangle m) n = None -> forall t, In t (mTypes m) -> nm t <> n).
  Proof.
    intros m n. unfold getType. split.
    - intros t H. apply find_some in H. destruct H as [H1 H2]. apply eqb_eq in H2. split; [|exact H2]. now apply (build_verts nm demangle).
    - intros H t T E. apply (build_verts nm demangle) in T. apply (find_none _ _ H) in T. apply eqb_false in T. now elim T.
  Qed.

  (** Writing the hierarchy to JSON and loading it for the same module answers all queries as before,
      whatever the order of the members and of the hash maps, if the types have distinct names. *)
  Theorem C39_json_partial : forall m j' order, NoDup (mTypes m) -> distinctNames nm (mTypes m) -> mTypes m <> [] ->
    (forall l, Permutation (order l) l) ->
    match printData (toData nm (build nm demangle m)) with Some j => Permutation j' j | None => False end ->
    exists d h', readData (Some j') = Some d /\ load nm order m d = Loaded h'
      /\ (forall t, hasType h' t = hasType (build nm demangle m) t)
      /\ (forall t s, isSubType h' t s = isSubType (build nm demangle m) t s).
  Proof. exact (json_round_trip nm demangle). Qed.
End P.

(** struct A; struct B : A; class C : B; struct D : A, C's sibling, and an unrelated external class X *)
Definition nm0 (t : nat) : string :=
  match t with 1 => "struct.A" | 2 => "struct.B" | 3 => "class.C" | 4 => "struct.D" | 5 => "class.X" | _ => "" end.
Definition dm0 (n : string) : string :=
  if eqb n "_ZTI1A" then "typeinfo for A" else if eqb n "_ZTI1B" then "typeinfo for B" else if eqb n "_ZTI1C" then "typeinfo for C"
  else if eqb n "_ZTI1D" then "typeinfo for D" else if eqb n "_ZTV1C" then "vtable for C" else n.
Definition ref (n : string) : cop := OElt (EBitCast (VGlobal n)).
Definition m0 : modul := mkModule [3; 1; 5; 2; 4]
  [mkGlobal "_ZTV1C" (IStruct [OArray [EOther; EBitCast (VGlobal "_ZTI1C")]]);
   mkGlobal "_ZTI1C" (IStruct [OElt (EBitCast VConst); OElt EOther; ref "_ZTI1B"]);
   mkGlobal "_ZTI1B" (IStruct [OElt (EBitCast VConst); OElt EOther; ref "_ZTI1A"]);
   mkGlobal "_ZTI1A" INone;
   mkGlobal "_ZTI1D" (IStruct [OElt (EBitCast VConst); OElt EOther; OElt EOther; ref "_ZTI1A"; OElt EOther; ref "_ZTI1B"])].
Definition cls0 (n : string) : option nat :=
  if eqb n "_ZTI1A" then Some 1 else if eqb n "_ZTI1B" then Some 2 else if eqb n "_ZTI1C" then Some 3 else if eqb n "_ZTI1D" then Some 4 else None.

Lemma named0 : named nm0 dm0 m0 cls0.
Proof.
  constructor.
  - repeat constructor; cbn; intuition congruence.
  - repeat constructor; cbn; intuition congruence.
  - intros n t H. unfold cls0 in H.
    repeat match type of H with (if eqb n ?s then _ else _) = _ => destruct (eqb n s) eqn:E; [apply eqb_eq in E; subst n; injection H as <-; cbn; intuition|clear E] end. discriminate.
  - intros n t T N P E. cbn in T, N. intuition (subst; vm_compute in E, P |- *; congruence).
  - intros t u T U E. cbn in T, U. intuition (subst; vm_compute in E; congruence).
  - intros n N P. cbn in N. intuition (subst; vm_compute in P |- *; congruence).
  - intros a b A B PA PB E. cbn in A, B. intuition (subst; vm_compute in E, PA, PB; congruence).
  - intros g ops v G I P O NE C. cbn in G.
    intuition (subst; cbn in I; try discriminate; injection I as <-; cbn in O; intuition (try discriminate));
      repeat match goal with H : OElt (EBitCast _) = OElt (EBitCast v) |- _ => injection H as <- | H : ref _ = OElt (EBitCast v) |- _ => injection H as <- end;
      try (elim NE; reflexivity); try (vm_compute in P; discriminate); eexists; (split; [reflexivity|]); cbn; intuition.
Qed.

Example C39_case :
  named nm0 dm0 m0 cls0
  /\ getSubTypes (build nm0 dm0 m0) 1 = [1; 2; 4; 3]
  /\ getSubTypes (build nm0 dm0 m0) 2 = [2; 3; 4]
  /\ getSubTypes (build nm0 dm0 m0) 3 = [3]
  /\ isSubType (build nm0 dm0 m0) 1 3 = true /\ isSubType (build nm0 dm0 m0) 3 1 = false /\ isSubType (build nm0 dm0 m0) 5 5 = true
  /\ getSubTypes (build nm0 dm0 m0) 9 = []
  /\ distinctNames nm0 (mTypes m0)
  /\ exists j d, printData (toData nm0 (build nm0 dm0 m0)) = Some j /\ readData (Some j) = Some d
       /\ match load nm0 (@rev _) m0 d with Loaded h => getSubTypes h 2 = [2; 3; 4] | OutOfRange => False end.
Proof.
  split; [exact named0|]. split; [vm_compute; reflexivity|]. split; [vm_compute; reflexivity|]. split; [vm_compute; reflexivity|].
  split; [vm_compute; reflexivity|]. split; [vm_compute; reflexivity|]. split; [vm_compute; reflexivity|]. split; [vm_compute; reflexivity|].
  split.
  - intros t u T U E. cbn in T, U. intuition (subst; vm_compute in E; congruence).
  - eexists. eexists. split; [vm_compute; reflexivity|]. split; [vm_compute; reflexivity|]. vm_compute. reflexivity.
Qed.

(** Template classes: the type info of Foo<int> does not have the name of its struct type
    class.Foo, so a class derived from it is not found as a sub type. *)
Theorem C39_template_base_refuted : exists nm demangle m cls b d,
  directBase m cls b d /\ In b (mTypes m) /\ In d (mTypes m) /\ NoDup (map nm (mTypes m))
  /\ isSubType (build nm demangle m) b d = false.
Proof.
  exists (fun t => match t with 1 => "class.Foo" | _ => "class.D" end),
    (fun n => if eqb n "_ZTI3FooIiE" then "typeinfo for Foo<int>" else if eqb n "_ZTI1D" then "typeinfo for D" else n),
    (mkModule [1; 2] [mkGlobal "_ZTI3FooIiE" (IStruct []); mkGlobal "_ZTI1D" (IStruct [ref "_ZTI3FooIiE"])]),
    (fun n => if eqb n "_ZTI3FooIiE" then Some 1 else if eqb n "_ZTI1D" then Some 2 else None), 1, 2.
  split; [|split; [cbn; auto|split; [cbn; auto|split; [repeat constructor; cbn; intuition congruence|vm_compute; reflexivity]]]].
  exists (mkGlobal "_ZTI1D" (IStruct [ref "_ZTI3FooIiE"])), "_ZTI3FooIiE".
  split; [cbn; auto|]. split; [reflexivity|]. split; [|reflexivity]. eexists. split; [reflexivity|]. split; [now left|]. cbn. discriminate.
Qed.

(** A hierarchy without types is written to a document that cannot be read: the member holding the
    graph is missing and is accessed nevertheless. *)
Theorem C39_json_empty_refuted : exists nm demangle m,
  mTypes m = [] /\ readData (printData (toData nm (build nm demangle m))) = None.
Proof. exists (fun _ => ""), (fun n => n), (mkModule [] []). split; reflexivity. Qed.

(** Unnamed identified types share one entry; all but one are lost after loading. *)
Theorem C39_json_unnamed_refuted : exists nm demangle m d h t,
  NoDup (mTypes m) /\ readData (printData (toData nm (build nm demangle m))) = Some d
  /\ load nm (fun l => l) m d = Loaded h
  /\ isSubType (build nm demangle m) t t = true /\ isSubType h t t = false.
Proof.
  exists (fun _ => ""), (fun n => n), (mkModule [1; 2] []). eexists. eexists. exists 2.
  split; [repeat constructor; cbn; intuition congruence|]. split; [vm_compute; reflexivity|]. split; [vm_compute; reflexivity|].
  split; vm_compute; reflexivity.
Qed.

(** Loading a hierarchy for a module that lacks one of the derived classes throws: the test for an
    unknown target type looks at the source type again. *)
Theorem C39_json_missing_type_refuted : exists nm demangle m m' d,
  readData (printData (toData nm (build nm demangle m))) = Some d
  /\ distinctNames nm (mTypes m) /\ (forall t, In t (mTypes m') -> In t (mTypes m))
  /\ load nm (fun l => l) m' d = OutOfRange.
Proof.
  exists nm0, dm0, m0, (mkModule [3; 1; 5; 2] []). eexists.
  split; [vm_compute; reflexivity|]. split; [intros t u T U E; cbn in T, U; intuition (subst; vm_compute in E; congruence)|].
  split; [cbn; intuition|]. vm_compute. reflexivity.
Qed.

Print Assumptions C39_subtypes_partial.
Print Assumptions C39_isSubType_partial.
Print Assumptions C39_preorder.
Print Assumptions C39_getType.
Print Assumptions C39_json_partial.
Print Assumptions C39_case.
Print Assumptions C39_template_base_refuted.
Print Assumptions C39_json_empty_refuted.
Print Assumptions C39_json_unnamed_refuted.
Print Assumptions C39_json_missing_type_refuted.
