(** C40: call-target resolution. *)
From Coq Require Import String List Bool Arith NArith Lia Relations.
From Verif Require Import Assoc TypeHierarchyModel TypeHierarchySpec TypeHierarchyProofs TypeHierarchyProperties ResolverModel ResolverSpec ResolverProofs.
Import ListNotations.
Open Scope nat_scope.

Section P.
  Variable nm : nat -> string.
  Variable demangle : string -> string.
  Variable fun_ : nat -> func.
  Notation cha := (chaVirtual fun_).
  Notation rta := (rtaVirtual fun_).
  Notation dta := (dtaVirtual fun_).

  (** The signature test accepts exactly the functions a call can invoke. *)
  Theorem C40_signature : forall c f, isConsistentCall c f = true <-> invokes c f.
  Proof. exact consistent_iff. Qed.

  (** The provider builds the tables of every module whose table arrays have the two header entries,
      one table per struct type. *)
  Theorem C40_tables_total : forall m, (forall g ops l, In g (mGlobals m) -> gInit g = IStruct ops -> In (OArray l) ops -> 2 <= length l) ->
    exists p, makeVTP nm demangle m = Some p /\ forall t, hasVFTable p t = true <-> In t (mTypes m).
  Proof.
    intros m H. destruct (makeVTP_total nm demangle m H) as [p E]. exists p. split; [exact E|]. intros t. unfold hasVFTable. rewrite mem_true.
    assert (G : forall ts p0 p tv, addTables nm tv ts p0 = Some p -> forall t, In t (akeys p) <-> In t (akeys p0) \/ In t ts).
    { clear. induction ts as [|u ts IH]; intros p0 p tv H t; cbn [addTables] in H.
      - injection H as <-. cbn. tauto.
      - destruct (getVirtualFunctions nm tv u) as [v|]; [|discriminate]. rewrite (IH _ _ _ H t). cbn [In].
        destruct (mem u (akeys p0)) eqn:M.
        + apply mem_true in M. split; [tauto|]. intros [A|[<-|A]]; auto.
        + unfold akeys. rewrite map_app, in_app_iff. cbn. tauto. }
    rewrite (G _ _ _ _ E t). cbn. tauto.
  Qed.

  (** CHA returns exactly the non-pure, type-correct table entries of the sub types of the receiver. *)
  Theorem C40_cha_exact : forall h p c f, In f (cha h p c) <->
    exists k r d v, getVFTIndex c = Some k /\ receives c r /\ isSubType h r d = true
      /\ getVFTableOrNull p d = Some v /\ nth_error v k = Some (Some f)
      /\ fnName (fun_ f) <> "__cxa_pure_virtual"%string /\ invokes c (fun_ f).
  Proof.
    intros h p c f. unfold chaVirtual. destruct (getVFTIndex c) as [k|] eqn:K.
    - rewrite collect_In. split.
      + intros [d [D1 D2]]. apply nonPure_iff in D2. destruct D2 as [v [V1 V2]]. unfold subTypesOf in D1. destruct (getReceiverType c) as [r|] eqn:R; [|destruct D1].
        exists k, r, d, v. split; [reflexivity|]. split; [now apply receiver_iff|]. split; [unfold isSubType; now apply mem_true|]. split; [exact V1|exact V2].
      + intros [k' [r [d [v [E [R [D [V V2]]]]]]]]. injection E as <-. apply receiver_iff in R. exists d. unfold subTypesOf. rewrite R. split; [unfold isSubType in D; now apply mem_true|].
        apply nonPure_iff. exists v. split; [exact V|exact V2].
    - split; [intros []|]. intros [k [r [d [v [E _]]]]]. discriminate.
  Qed.

  (** Whatever class derived from the receiver's class the object has: the function executed by the
      call is a CHA target, provided the class uses the receiver's slots in its primary table. *)
  Theorem C40_cha_covers_partial : forall m cls vcls p c r k d f,
    named nm demangle m cls -> vnamed nm demangle m vcls -> makeVTP nm demangle m = Some p ->
    receives c r -> callsSlot c k -> In r (mTypes m) -> derived m cls r d ->
    dispatches m vcls d 0 2 k f -> fnName (fun_ f) <> "__cxa_pure_virtual"%string -> invokes c (fun_ f) ->
    In f (cha (build nm demangle m) p c).
  Proof.
    intros m cls vcls p c r k d f N V MV R K Ir D DI NP INV.
    assert (SUB : isSubType (build nm demangle m) r d = true) by (apply (C39_isSubType_partial nm demangle m cls N); auto).
    destruct (C39_preorder nm demangle m) as [_ [_ [P3 _]]]. destruct (P3 _ _ SUB) as [_ Id].
    destruct (vtp_primary nm demangle m vcls p d k f V MV Id DI) as [v [V1 V2]].
    apply C40_cha_exact. exists k, r, d, v. split; [now apply index_of|]. auto 10.
  Qed.

  (** RTA never returns more than CHA. *)
  Theorem C40_rta_subset : forall alloc h p c f, In f (rta alloc h p c) -> In f (cha h p c).
  Proof.
    intros alloc h p c f. unfold rtaVirtual. destruct (getVFTIndex c) as [k|] eqn:K; [|intros []].
    destruct (collect fun_ p k c _) as [|x l] eqn:E; [auto|]. rewrite <- E. intros H.
    apply collect_In in H. destruct H as [t [T1 T2]]. apply filter_In in T1. destruct T1 as [_ T1]. apply mem_true in T1.
    unfold chaVirtual. rewrite K. apply collect_In. eauto.
  Qed.

  (** RTA has targets whenever CHA has. *)
  Theorem C40_rta_fallback : forall alloc h p c, rta alloc h p c = [] -> cha h p c = [].
  Proof.
    intros alloc h p c. unfold rtaVirtual. destruct (getVFTIndex c) as [k|] eqn:K.
    - destruct (collect fun_ p k c _) as [|x l]; [auto|discriminate].
    - intros _. unfold chaVirtual. now rewrite K.
  Qed.

  (** RTA returns the targets of the allocated sub types if there are any, otherwise all of CHA's. *)
  Theorem C40_rta_exact : forall alloc h p c,
    let fromAllocated f := exists k r d v, getVFTIndex c = Some k /\ receives c r /\ In d alloc /\ isSubType h r d = true
      /\ getVFTableOrNull p d = Some v /\ nth_error v k = Some (Some f)
      /\ fnName (fun_ f) <> "__cxa_pure_virtual"%string /\ invokes c (fun_ f) in
    ((exists f, fromAllocated f) -> forall f, In f (rta alloc h p c) <-> fromAllocated f)
    /\ ((forall f, ~ fromAllocated f) -> rta alloc h p c = cha h p c).
  Proof.
    intros alloc h p c fa. unfold rtaVirtual. destruct (getVFTIndex c) as [k|] eqn:K.
    - assert (C : forall f, In f (collect fun_ p k c (filter (fun t => mem t (subTypesOf h (getReceiverType c))) alloc)) <-> fa f).
      { intros f. rewrite collect_In. unfold fa. split.
        - intros [d [D1 D2]]. apply filter_In in D1. destruct D1 as [D0 D1]. apply mem_true in D1. unfold subTypesOf in D1.
          destruct (getReceiverType c) as [r|] eqn:R; [|destruct D1]. apply nonPure_iff in D2. destruct D2 as [v [V1 V2]].
          exists k, r, d, v. split; [reflexivity|]. split; [now apply receiver_iff|]. split; [exact D0|]. split; [unfold isSubType; now apply mem_true|]. split; [exact V1|exact V2].
        - intros [k' [r [d [v [E [R [A [D [V V2]]]]]]]]]. injection E as <-. apply receiver_iff in R. exists d. split.
          + apply filter_In. split; [exact A|]. rewrite R. exact D.
          + apply nonPure_iff. exists v. split; [exact V|exact V2]. }
      destruct (collect fun_ p k c _) as [|x l] eqn:E.
      + split; [|auto]. intros [f F]. apply C in F. destruct F.
      + split; [intros _ f; apply C|]. intros H. elim (H x). apply C. now left.
    - split.
      + intros [f [k [r [d [v [E _]]]]]]. discriminate.
      + intros _. unfold chaVirtual. now rewrite K.
  Qed.

  (** DTA falls back to CHA, too. *)
  Theorem C40_dta_fallback : forall types h p c, dta types h p c = [] -> cha h p c = [].
  Proof.
    intros types h p c. unfold dtaVirtual. destruct (getVFTIndex c) as [k|] eqn:K.
    - destruct (collect fun_ p k c types) as [|x l]; [auto|discriminate].
    - intros _. unfold chaVirtual. now rewrite K.
  Qed.

  (** A call through a function pointer resolves to exactly the address-taken functions it can invoke. *)
  Theorem C40_function_pointer : forall fs c f, In f (functionPointer fun_ fs c) <-> In f fs /\ fnAddressTaken (fun_ f) = true /\ invokes c (fun_ f).
  Proof. exact (fp_In nm demangle fun_). Qed.

  (** Types of local variables are allocated types, and so are those of heap objects whose
      casted address is passed to a function expecting it. *)
  Theorem C40_allocated : forall is s l, allocatedTypes fun_ is s = Some l -> forall t,
    In t l <-> In t s \/ In (RAlloca (TStruct t)) is
      \/ exists f us cs g ps, In (RCall (Some f) us) is /\ isHeapAllocating (fun_ f) = true
           /\ In (UBitCast (TPtr (TStruct t)) cs) us /\ In (UCall (Some g)) cs /\ fnParams (fun_ g) = TPtr (TStruct t) :: ps.
  Proof.
    assert (C : forall dest u us s l, ctorCalls fun_ dest u us s = Some l -> forall t, In t l <-> In t s \/ (t = u /\ exists g ps, In (UCall (Some g)) us /\ fnParams (fun_ g) = dest :: ps)).
    { intros dest u us. induction us as [|x us IH]; intros s l H t; cbn [ctorCalls] in H.
      - injection H as <-. split; [auto|]. intros [K|[_ [g [ps [[] _]]]]]; exact K.
      - destruct x as [[g|]|].
        + destruct (nth_error (fnParams (fun_ g)) 0) as [q|] eqn:Q; [|discriminate]. rewrite (IH _ _ H t).
          destruct (fnParams (fun_ g)) as [|q' ps] eqn:PS; [discriminate|]. cbn in Q. injection Q as ->.
          destruct (eqb q dest) eqn:E.
          * apply eqb_eq in E. subst q. rewrite In_sinsert. split.
            -- intros [[-> |K]|[-> [g' [ps' [G1 G2]]]]]; [right; split; [reflexivity|exists g, ps; split; [now left|exact PS]]|auto|right; split; [reflexivity|exists g', ps'; split; [now right|exact G2]]].
            -- intros [K|[-> [g' [ps' [G1 G2]]]]]; auto.
          * apply eqb_false in E. split.
            -- intros [K|[-> [g' [ps' [G1 G2]]]]]; [auto|right; split; [reflexivity|exists g', ps'; split; [now right|exact G2]]].
            -- intros [K|[-> [g' [ps' [[G1|G1] G2]]]]]; [auto| |right; split; [reflexivity|eauto]].
               injection G1 as ->. rewrite PS in G2. injection G2 as -> _. now elim E.
        + rewrite (IH _ _ H t). split.
          * intros [K|[-> [g' [ps' [G1 G2]]]]]; [auto|right; split; [reflexivity|exists g', ps'; split; [now right|exact G2]]].
          * intros [K|[-> [g' [ps' [[G1|G1] G2]]]]]; [auto|discriminate|right; split; [reflexivity|eauto]].
        + rewrite (IH _ _ H t). split.
          * intros [K|[-> [g' [ps' [G1 G2]]]]]; [auto|right; split; [reflexivity|exists g', ps'; split; [now right|exact G2]]].
          * intros [K|[-> [g' [ps' [[G1|G1] G2]]]]]; [auto|discriminate|right; split; [reflexivity|eauto]]. }
    assert (H1 : forall us s l, heapUsers fun_ us s = Some l -> forall t, In t l <-> In t s \/ exists cs g ps, In (UBitCast (TPtr (TStruct t)) cs) us /\ In (UCall (Some g)) cs /\ fnParams (fun_ g) = TPtr (TStruct t) :: ps).
    { assert (W : forall u us s l t, (forall cs, u <> UBitCast (TPtr (TStruct t)) cs) ->
        (In t l <-> In t s \/ exists cs g ps, In (UBitCast (TPtr (TStruct t)) cs) us /\ In (UCall (Some g)) cs /\ fnParams (fun_ g) = TPtr (TStruct t) :: ps) ->
        (In t l <-> In t s \/ exists cs g ps, In (UBitCast (TPtr (TStruct t)) cs) (u :: us) /\ In (UCall (Some g)) cs /\ fnParams (fun_ g) = TPtr (TStruct t) :: ps)).
      { intros u us s l t N I. rewrite I. split; (intros [K|[cs [g [ps [A B]]]]]; [auto|right; exists cs, g, ps; split; [|exact B]]).
        - now right.
        - destruct A as [A|A]; [now elim (N cs)|exact A]. }
      induction us as [|u us IH]; intros s l H t; cbn [heapUsers] in H.
      - injection H as <-. split; [auto|]. intros [K|[cs [g [ps [[] _]]]]]; exact K.
      - destruct u as [[n|[n|e| |t'|k i]| |n|k i] cs|]; try (apply W; [intros ? X; discriminate|]; apply IH; exact H).
        destruct (ctorCalls fun_ (TPtr (TStruct t')) t' cs s) as [s'|] eqn:E; [|discriminate].
        rewrite (IH _ _ H t), (C _ _ _ _ _ E t). split.
        + intros [[K|[-> [g [ps [G1 G2]]]]]|[cs' [g [ps [A B]]]]]; [auto|right; exists cs, g, ps; split; [now left|auto]|right; exists cs', g, ps; split; [now right|exact B]].
        + intros [K|[cs' [g [ps [[A|A] [B1 B2]]]]]]; [auto| |right; exists cs', g, ps; auto].
          injection A as <- <-. left. right. split; [reflexivity|]. eauto. }
    intros is. induction is as [|i is IH]; intros s l H t; cbn [allocatedTypes] in H.
    - injection H as <-. split; [auto|]. intros [K|[[]|[f [us [cs [g [ps [[] _]]]]]]]]; exact K.
    - assert (W : (forall u, i <> RAlloca (TStruct u)) -> (forall f us, i = RCall (Some f) us -> isHeapAllocating (fun_ f) = false) -> allocatedTypes fun_ is s = Some l ->
        (In t l <-> In t s \/ In (RAlloca (TStruct t)) (i :: is) \/ exists f us cs g ps, In (RCall (Some f) us) (i :: is) /\ isHeapAllocating (fun_ f) = true
           /\ In (UBitCast (TPtr (TStruct t)) cs) us /\ In (UCall (Some g)) cs /\ fnParams (fun_ g) = TPtr (TStruct t) :: ps)).
      { intros N1 N2 HH. rewrite (IH _ _ HH t). cbn [In]. split.
        - intros [K|[K|[f [us [cs [g [ps [A B]]]]]]]]; [auto|auto|]. right. right. exists f, us, cs, g, ps. split; [now right|exact B].
        - intros [K|[[K|K]|[f [us [cs [g [ps [[A|A] [B1 B2]]]]]]]]]; [auto|now elim (N1 t)|auto| |].
          + rewrite (N2 _ _ A) in B1. discriminate.
          + right. right. exists f, us, cs, g, ps. auto. }
      destruct i as [[n|e| |u|k i]|[f|] us|]; try (apply W; [intros ? X; discriminate|intros ? ? X; discriminate|exact H]).
      + rewrite (IH _ _ H t), In_sinsert. cbn [In]. split.
        * intros [[-> |K]|[K|[f [us [cs [g [ps [A B]]]]]]]]; auto. right. right. exists f, us, cs, g, ps. split; [now right|exact B].
        * intros [K|[[K|K]|[f [us [cs [g [ps [[A|A] B]]]]]]]]; [auto|injection K as ->; auto|auto|discriminate|]. right. right. exists f, us, cs, g, ps. auto.
      + destruct (isHeapAllocating (fun_ f)) eqn:HA.
        * destruct (heapUsers fun_ us s) as [s'|] eqn:E; [|discriminate]. rewrite (IH _ _ H t), (H1 _ _ _ E t). cbn [In]. split.
          -- intros [[K|[cs [g [ps B]]]]|[K|[f' [us' [cs [g [ps [A B]]]]]]]]; [auto| |auto|].
             ++ right. right. exists f, us, cs, g, ps. auto.
             ++ right. right. exists f', us', cs, g, ps. split; [now right|exact B].
          -- intros [K|[[K|K]|[f' [us' [cs [g [ps [[A|A] [B1 B2]]]]]]]]]; [auto|discriminate|auto| |].
             ++ injection A as -> ->. left. right. exists cs, g, ps. exact B2.
             ++ right. right. exists f', us', cs, g, ps. auto.
        * apply W; [intros ? X; discriminate|intros f' us' X; injection X as <- <-; exact HA|exact H].
  Qed.
End P.

(** * A concrete hierarchy: A { virtual f; virtual g; }, B : A overriding f, C : B overriding g, all with tables *)
Open Scope string_scope.
Definition ptr (t : nat) : lty := TPtr (TStruct t).
Definition method (n : string) (t : nat) : func := mkFunc n [ptr t] (TInt 1) false true.
Definition fun0 (f : nat) : func :=
  match f with
  | 1 => method "_ZN1A1fEv" 1 | 2 => method "_ZN1A1gEv" 1 | 3 => method "_ZN1B1fEv" 2 | 4 => method "_ZN1C1gEv" 3
  | 5 => mkFunc "__cxa_pure_virtual" [] (TInt 1) false true
  | 6 => mkFunc "callback" [ptr 4] (TInt 1) false true
  | 7 => mkFunc "malloc" [TInt 64] (TPtr (TInt 8)) false false
  | 8 => mkFunc "printf_like" [] (TInt 1) true false
  | _ => mkFunc "other" [TInt 32] (TInt 1) false true
  end.
Definition en (f : nat) : elt := EBitCast (VFunction f (fnName (fun0 f))).
Definition nmR (t : nat) : string := match t with 1 => "class.A" | 2 => "class.B" | 3 => "class.C" | 4 => "struct.ops" | _ => "" end.
Definition dmR (n : string) : string :=
  if eqb n "_ZTI1A" then "typeinfo for A" else if eqb n "_ZTI1B" then "typeinfo for B" else if eqb n "_ZTI1C" then "typeinfo for C"
  else if eqb n "_ZTV1A" then "vtable for A" else if eqb n "_ZTV1B" then "vtable for B" else if eqb n "_ZTV1C" then "vtable for C" else n.
Definition tvG (n : string) (ti : string) (l : list elt) : global := mkGlobal n (IStruct [OArray (EOther :: EBitCast (VGlobal ti) :: l)]).
Definition mR : modul := mkModule [1; 2; 3; 4]
  [tvG "_ZTV1A" "_ZTI1A" [en 1; en 2]; tvG "_ZTV1B" "_ZTI1B" [en 3; en 2]; tvG "_ZTV1C" "_ZTI1C" [en 3; en 4];
   mkGlobal "_ZTI1A" (IStruct [OElt (EBitCast VConst); OElt EOther]);
   mkGlobal "_ZTI1B" (IStruct [OElt (EBitCast VConst); OElt EOther; ref "_ZTI1A"]);
   mkGlobal "_ZTI1C" (IStruct [OElt (EBitCast VConst); OElt EOther; ref "_ZTI1B"])].
Definition clsR (n : string) : option nat := if eqb n "_ZTI1A" then Some 1 else if eqb n "_ZTI1B" then Some 2 else if eqb n "_ZTI1C" then Some 3 else None.
Definition vclsR (n : string) : option nat := if eqb n "_ZTV1A" then Some 1 else if eqb n "_ZTV1B" then Some 2 else if eqb n "_ZTV1C" then Some 3 else None.
(** a->g() on an A* *)
Definition callG : call := mkCall [ptr 1] false [ptr 1] (TInt 1) (OLoadGep (Some 1%N)).
Definition pR : vtp := [(1, [Some 1; Some 2]); (2, [Some 3; Some 2]); (3, [Some 3; Some 4]); (4, [])].
Definition hR : th := build nmR dmR mR.

Lemma namedR : named nmR dmR mR clsR.
Proof.
  constructor.
  - repeat constructor; cbn; intuition congruence.
  - repeat constructor; cbn; intuition congruence.
  - intros n t H. unfold clsR in H.
    repeat match type of H with (if eqb n ?s then _ else _) = _ => destruct (eqb n s) eqn:E; [apply eqb_eq in E; subst n; injection H as <-; cbn; intuition|clear E] end. discriminate.
  - intros n t T N P E. cbn in T, N. intuition (subst; vm_compute in E, P |- *; congruence).
  - intros t u T U E. cbn in T, U. intuition (subst; vm_compute in E; congruence).
  - intros n N P. cbn in N. intuition (subst; vm_compute in P |- *; congruence).
  - intros a b A B PA PB E. cbn in A, B. intuition (subst; vm_compute in E, PA, PB; congruence).
  - intros g ops v G I P O NE C. cbn in G.
    intuition (subst; cbn in I; try discriminate; injection I as <-; cbn in O; intuition (try discriminate));
      repeat match goal with H : OElt (EBitCast _) = OElt (EBitCast v) |- _ => injection H as <- | H : ref _ = OElt (EBitCast v) |- _ => injection H as <- end;
      try (elim NE; reflexivity); try (vm_compute in P; discriminate); eexists; (split; [reflexivity|]); cbn; intuition.
Qed.

Lemma vnamedR : vnamed nmR dmR mR vclsR.
Proof.
  constructor.
  - repeat constructor; cbn; intuition congruence.
  - intros n t H. unfold vclsR in H.
    repeat match type of H with (if eqb n ?s then _ else _) = _ => destruct (eqb n s) eqn:E; [apply eqb_eq in E; subst n; injection H as <-; cbn; intuition|clear E] end. discriminate.
  - intros g g' G G' V V' E. cbn in G, G'. intuition (subst; try reflexivity; vm_compute in E, V, V'; congruence).
Qed.

Example C40_case :
  named nmR dmR mR clsR /\ vnamed nmR dmR mR vclsR /\ makeVTP nmR dmR mR = Some pR
  /\ receives callG 1 /\ callsSlot callG 1 /\ derived mR clsR 1 3 /\ dispatches mR vclsR 3 0 2 1 4 /\ invokes callG (fun0 4)
  /\ chaVirtual fun0 hR pR callG = [2; 4]
  /\ rtaVirtual fun0 [3] hR pR callG = [4]
  /\ rtaVirtual fun0 [4] hR pR callG = [2; 4]
  /\ allocatedTypes fun0 [RAlloca (TInt 32); RAlloca (TStruct 2); RCall (Some 7) [UBitCast (ptr 3) [UOtherUser; UCall (Some 4)]; UNoCast]] [] = Some [2; 3]
  /\ functionPointer fun0 [1; 2; 5; 6; 7; 8; 9] (mkCall [TPtr (TStruct 4)] false [ptr 4] (TInt 1) OOperand) = [1; 2; 6].
Proof.
  split; [exact namedR|]. split; [exact vnamedR|]. split; [vm_compute; reflexivity|].
  split; [exists [], []; split; reflexivity|]. split; [exists 1%N; split; [reflexivity|split; [reflexivity|reflexivity]]|].
  split.
  { eapply rt_trans; [apply (rt_step _ _ _ 2)|apply rt_step].
    - exists (mkGlobal "_ZTI1B" (IStruct [OElt (EBitCast VConst); OElt EOther; ref "_ZTI1A"])), "_ZTI1A".
      split; [cbn; tauto|]. split; [reflexivity|]. split; [|reflexivity]. eexists. split; [reflexivity|]. split; [cbn; tauto|cbn; discriminate].
    - exists (mkGlobal "_ZTI1C" (IStruct [OElt (EBitCast VConst); OElt EOther; ref "_ZTI1B"])), "_ZTI1B".
      split; [cbn; tauto|]. split; [reflexivity|]. split; [|reflexivity]. eexists. split; [reflexivity|]. split; [cbn; tauto|cbn; discriminate]. }
  split.
  { eexists [[EOther; EBitCast (VGlobal "_ZTI1C"); en 3; en 4]], [EOther; EBitCast (VGlobal "_ZTI1C"); en 3; en 4], (VFunction _ "_ZN1C1gEv").
    split; [|split; [reflexivity|split; [reflexivity|constructor]]]. exists (tvG "_ZTV1C" "_ZTI1C" [en 3; en 4]). split; [cbn; tauto|split; reflexivity]. }
  split; [apply consistent_iff; vm_compute; reflexivity|].
  repeat split; vm_compute; reflexivity.
Qed.

(** * What is not covered *)

(** Multiple inheritance: D : B1, B2. A call of slot 0 through B2 executes the entry in the second
    table of D, CHA returns the entry of the first one. Classes 1 = B1, 2 = B2, 3 = D. *)
Definition mMI : modul := mkModule [1; 2; 3]
  [tvG "_ZTV1A" "_ZTI1A" [en 1]; tvG "_ZTV1B" "_ZTI1B" [en 3];
   mkGlobal "_ZTV1C" (IStruct [OArray [EOther; EBitCast (VGlobal "_ZTI1C"); en 2; en 4]; OArray [EOther; EBitCast (VGlobal "_ZTI1C"); en 9]]);
   mkGlobal "_ZTI1A" (IStruct [OElt (EBitCast VConst); OElt EOther]);
   mkGlobal "_ZTI1B" (IStruct [OElt (EBitCast VConst); OElt EOther]);
   mkGlobal "_ZTI1C" (IStruct [OElt (EBitCast VConst); OElt EOther; ref "_ZTI1A"; ref "_ZTI1B"])].
Definition funMI (f : nat) : func := match f with 9 => method "_ZThn8_N1C1gEv" 3 | _ => fun0 f end.
Definition callB2 : call := mkCall [ptr 2] false [ptr 2] (TInt 1) (OLoadGep (Some 0%N)).
Theorem C40_secondary_base_refuted : exists nm demangle fun_ m cls vcls p c r k d f,
  makeVTP nm demangle m = Some p /\ receives c r /\ callsSlot c k /\ directBase m cls r d
  /\ dispatches m vcls d 1 2 k f /\ fnName (fun_ f) <> "__cxa_pure_virtual" /\ invokes c (fun_ f)
  /\ isSubType (build nm demangle m) r d = true
  /\ ~ In f (chaVirtual fun_ (build nm demangle m) p c) /\ (forall alloc, ~ In f (rtaVirtual fun_ alloc (build nm demangle m) p c)).
Proof.
  exists nmR, dmR, funMI, mMI, clsR, vclsR, [(1, [Some 1]); (2, [Some 3]); (3, [Some 2; Some 4; Some 9])], callB2, 2, 0, 3, 9.
  split; [vm_compute; reflexivity|]. split; [exists [], []; split; reflexivity|]. split; [exists 0%N; split; [reflexivity|split; reflexivity]|].
  split.
  { exists (mkGlobal "_ZTI1C" (IStruct [OElt (EBitCast VConst); OElt EOther; ref "_ZTI1A"; ref "_ZTI1B"])), "_ZTI1B".
    split; [cbn; tauto|]. split; [reflexivity|]. split; [|reflexivity]. eexists. split; [reflexivity|]. split; [cbn; tauto|cbn; discriminate]. }
  split.
  { eexists [[EOther; EBitCast (VGlobal "_ZTI1C"); en 2; en 4]; [EOther; EBitCast (VGlobal "_ZTI1C"); en 9]], [EOther; EBitCast (VGlobal "_ZTI1C"); en 9], (VFunction _ "other").
    split; [|split; [reflexivity|split; [reflexivity|constructor]]]. eexists. split; [right; right; left; reflexivity|split; reflexivity]. }
  split; [discriminate|]. split; [apply consistent_iff; vm_compute; reflexivity|]. split; [vm_compute; reflexivity|].
  assert (N : ~ In 9 (chaVirtual funMI (build nmR dmR mMI) [(1, [Some 1]); (2, [Some 3]); (3, [Some 2; Some 4; Some 9])] callB2)) by (vm_compute; intuition congruence).
  split; [exact N|]. intros alloc H. apply C40_rta_subset in H. exact (N H).
Qed.

(** Virtual bases: the table of the class has an additional entry in front (the virtual base offset),
    so all slots are off by one. *)
Definition mVB : modul := mkModule [1; 2]
  [tvG "_ZTV1A" "_ZTI1A" [en 1];
   mkGlobal "_ZTV1B" (IStruct [OArray [EOther; EOther; EBitCast (VGlobal "_ZTI1B"); en 3]]);
   mkGlobal "_ZTI1A" (IStruct [OElt (EBitCast VConst); OElt EOther]);
   mkGlobal "_ZTI1B" (IStruct [OElt (EBitCast VConst); OElt EOther; OElt EOther; OElt EOther; ref "_ZTI1A"])].
Definition callA : call := mkCall [ptr 1] false [ptr 1] (TInt 1) (OLoadGep (Some 0%N)).
Theorem C40_virtual_base_refuted : exists nm demangle fun_ m cls vcls p c r k d f,
  makeVTP nm demangle m = Some p /\ receives c r /\ callsSlot c k /\ directBase m cls r d
  /\ dispatches m vcls d 0 3 k f /\ fnName (fun_ f) <> "__cxa_pure_virtual" /\ invokes c (fun_ f)
  /\ isSubType (build nm demangle m) r d = true
  /\ ~ In f (chaVirtual fun_ (build nm demangle m) p c).
Proof.
  exists nmR, dmR, fun0, mVB, clsR, vclsR, [(1, [Some 1]); (2, [None; Some 3])], callA, 1, 0, 2, 3.
  split; [vm_compute; reflexivity|]. split; [exists [], []; split; reflexivity|]. split; [exists 0%N; split; [reflexivity|split; reflexivity]|].
  split.
  { exists (mkGlobal "_ZTI1B" (IStruct [OElt (EBitCast VConst); OElt EOther; OElt EOther; OElt EOther; ref "_ZTI1A"])), "_ZTI1A".
    split; [cbn; tauto|]. split; [reflexivity|]. split; [|reflexivity]. eexists. split; [reflexivity|]. split; [cbn; tauto|cbn; discriminate]. }
  split.
  { eexists [[EOther; EOther; EBitCast (VGlobal "_ZTI1B"); en 3]], [EOther; EOther; EBitCast (VGlobal "_ZTI1B"); en 3], (VFunction _ "_ZN1B1fEv").
    split; [|split; [reflexivity|split; [reflexivity|constructor]]]. eexists. split; [right; left; reflexivity|split; reflexivity]. }
  split; [discriminate|]. split; [apply consistent_iff; vm_compute; reflexivity|]. split; [vm_compute; reflexivity|]. vm_compute. intuition congruence.
Qed.

(** Covariant return types: B::f returns B* where A::f returns A*. The overriding function is in the
    slot, but the call through A is not considered consistent with it. *)
Definition funCo (f : nat) : func :=
  match f with 1 => mkFunc "_ZN1A5cloneEv" [ptr 1] (ptr 1) false true | 3 => mkFunc "_ZN1B5cloneEv" [ptr 2] (ptr 2) false true | _ => fun0 f end.
Definition callClone : call := mkCall [ptr 1] false [ptr 1] (ptr 1) (OLoadGep (Some 0%N)).
Theorem C40_covariant_return_refuted : exists nm demangle fun_ m cls vcls p c r k d f,
  makeVTP nm demangle m = Some p /\ receives c r /\ callsSlot c k /\ In r (mTypes m) /\ derived m cls r d
  /\ dispatches m vcls d 0 2 k f /\ fnName (fun_ f) <> "__cxa_pure_virtual"
  /\ named nm demangle m cls /\ vnamed nm demangle m vcls
  /\ Forall2 passable (cParams c) (fnParams (fun_ f)) /\ passable (cRet c) (fnRet (fun_ f))
  /\ ~ In f (chaVirtual fun_ (build nm demangle m) p c).
Proof.
  exists nmR, dmR, funCo, mR, clsR, vclsR, pR, callClone, 1, 0, 2, 3.
  split; [vm_compute; reflexivity|]. split; [exists [], []; split; reflexivity|]. split; [exists 0%N; split; [reflexivity|split; reflexivity]|].
  split; [cbn; tauto|]. split.
  { apply rt_step. exists (mkGlobal "_ZTI1B" (IStruct [OElt (EBitCast VConst); OElt EOther; ref "_ZTI1A"])), "_ZTI1A".
    split; [cbn; tauto|]. split; [reflexivity|]. split; [|reflexivity]. eexists. split; [reflexivity|]. split; [cbn; tauto|cbn; discriminate]. }
  split.
  { eexists [[EOther; EBitCast (VGlobal "_ZTI1B"); en 3; en 2]], [EOther; EBitCast (VGlobal "_ZTI1B"); en 3; en 2], (VFunction _ "_ZN1B1fEv").
    split; [|split; [reflexivity|split; [reflexivity|constructor]]]. eexists. split; [right; left; reflexivity|split; reflexivity]. }
  split; [discriminate|]. split; [exact namedR|]. split; [exact vnamedR|].
  split; [constructor; [apply pass_ptr; apply pass_struct|constructor]|]. split; [apply pass_ptr; apply pass_struct|]. vm_compute. intuition congruence.
Qed.

(** A C-style call through a function pointer stored in a struct and passed that struct,
    s->fp(s): the struct has an (empty) table, so the call counts as virtual and gets no target,
    although an address-taken function fits. *)
Definition callFp : call := mkCall [ptr 4] false [ptr 4] (TInt 1) (OLoadGep (Some 0%N)).
Theorem C40_struct_function_pointer_refuted : exists nm demangle fun_ m p fs c f,
  makeVTP nm demangle m = Some p /\ In f fs /\ fnAddressTaken (fun_ f) = true /\ invokes c (fun_ f)
  /\ In f (functionPointer fun_ fs c)
  /\ resolveIndirectCall fun_ (chaVirtual fun_ (build nm demangle m) p) fs p c = []
  /\ forall alloc, resolveIndirectCall fun_ (rtaVirtual fun_ alloc (build nm demangle m) p) fs p c = [].
Proof.
  exists nmR, dmR, fun0, mR, pR, [1; 6], callFp, 6.
  assert (C : chaVirtual fun0 (build nmR dmR mR) pR callFp = []) by (vm_compute; reflexivity).
  split; [vm_compute; reflexivity|]. split; [cbn; tauto|]. split; [reflexivity|]. split; [apply consistent_iff; vm_compute; reflexivity|].
  split; [vm_compute; tauto|]. assert (V : isVirtualCall pR callFp = true) by (vm_compute; reflexivity). unfold resolveIndirectCall. rewrite V.
  split; [exact C|]. intros alloc. destruct (rtaVirtual fun0 alloc (build nmR dmR mR) pR callFp) as [|f l] eqn:E; [reflexivity|].
  assert (I : In f (chaVirtual fun0 (build nmR dmR mR) pR callFp)) by (apply (C40_rta_subset fun0 alloc); rewrite E; now left).
  rewrite C in I. destruct I.
Qed.

(** An object that is neither a local variable nor a cast heap object (e.g. a global variable of
    class C) is not an allocated type: its function is dropped when another sub type is allocated. *)
Theorem C40_rta_global_object_refuted : exists nm demangle fun_ m cls vcls p c r k d f is alloc,
  makeVTP nm demangle m = Some p /\ named nm demangle m cls /\ vnamed nm demangle m vcls /\ receives c r /\ callsSlot c k /\ derived m cls r d
  /\ dispatches m vcls d 0 2 k f /\ invokes c (fun_ f) /\ allocatedTypes fun_ is [] = Some alloc
  /\ In f (chaVirtual fun_ (build nm demangle m) p c) /\ ~ In f (rtaVirtual fun_ alloc (build nm demangle m) p c).
Proof.
  destruct C40_case as [A [B [C [D [E [F [G [H _]]]]]]]].
  exists nmR, dmR, fun0, mR, clsR, vclsR, pR, callG, 1, 1, 3, 4, [RAlloca (TStruct 1); ROther], [1].
  split; [exact C|]. split; [exact A|]. split; [exact B|]. split; [exact D|]. split; [exact E|]. split; [exact F|]. split; [exact G|]. split; [exact H|].
  split; [vm_compute; reflexivity|]. split; [vm_compute; tauto|]. vm_compute. intuition congruence.
Qed.

(** Constructing an RTA resolver dereferences a null pointer if the address of a heap object is passed
    to a function without fixed parameters. *)
Theorem C40_rta_variadic_refuted : exists fun_ is, allocatedTypes fun_ is [] = None.
Proof. exists fun0, [RCall (Some 7) [UBitCast (ptr 3) [UCall (Some 8)]]]. vm_compute. reflexivity. Qed.

(** A call graph cannot be built with the OTF resolver by giving its kind: the alias information is
    created and then not passed on. *)
Theorem C40_otf_builder_refuted : exists ty, (forall asserts, create asserts ty true true = Some ty)
  /\ forall asserts pt, builderResolver asserts ty pt = None.
Proof. exists OTF. split; reflexivity. Qed.

Theorem C40_builder : forall asserts pt ty, ty = NORESOLVE \/ ty = CHA \/ ty = RTA \/ ty = DTA -> builderResolver asserts ty pt = Some ty.
Proof. intros asserts pt ty [-> | [-> | [-> | ->]]]; destruct asserts; reflexivity. Qed.

Print Assumptions C40_signature.
Print Assumptions C40_tables_total.
Print Assumptions C40_cha_exact.
Print Assumptions C40_cha_covers_partial.
Print Assumptions C40_rta_subset.
Print Assumptions C40_rta_fallback.
Print Assumptions C40_rta_exact.
Print Assumptions C40_dta_fallback.
Print Assumptions C40_function_pointer.
Print Assumptions C40_allocated.
Print Assumptions C40_case.
Print Assumptions C40_secondary_base_refuted.
Print Assumptions C40_virtual_base_refuted.
Print Assumptions C40_covariant_return_refuted.
Print Assumptions C40_struct_function_pointer_refuted.
Print Assumptions C40_rta_global_object_refuted.
Print Assumptions C40_rta_variadic_refuted.
Print Assumptions C40_otf_builder_refuted.
Print Assumptions C40_builder.
