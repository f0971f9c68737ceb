(** C50: the flow functions that carry facts across calls and stores.

    [isZero], [isConstant] and [is] stand for the conversions of a fact to
    llvm::Value*; the zero value is a GlobalVariable (LLVMZeroValue.h), hence an
    llvm::Constant, which is the hypothesis [ZC]. *)
From Coq Require Import List Bool Arith Lia.
From Verif Require Import Assoc LLVMFlowFunctionsModel LLVMFlowFunctionsSpec LLVMFlowFunctionsProofs.
Import ListNotations.

(** Call to return: as documented, unless a global is passed as argument. *)
Theorem C50_alongside_as_documented : forall (V D : Type) (isZero isConstant : D -> bool) (is : V -> D -> bool) (mk : V -> D)
  propArgs propGlobals args d d',
  (forall a, In a args -> is a d = true -> isConstant d = false /\ isZero d = false) ->
  (forall a b, is a d = true -> is b d = true -> a = b) ->
  In d' (alongside isZero isConstant is mk propArgs propGlobals args d) <->
  docAlongside (fun d => isZero d = true) (fun d => isConstant d = true) mk (fun a d => is a d = true) propArgs propGlobals args d d'.
Proof.
  intros V D isZero isConstant is mk propArgs propGlobals args d d' HA HU. unfold alongside, docAlongside.
  destruct (isZero d) eqn:Z.
  { split.
    - intros [<-|[]]. split; [auto|]. split; [congruence|]. split; [|congruence].
      intros a Ha Hi. destruct (HA a Ha Hi). congruence.
    - intros (H1 & _). left. symmetry. auto. }
  destruct (isConstant d) eqn:C.
  { split.
    - destruct propGlobals; [intros [<-|[]]|intros []]. split; [congruence|]. split; [auto|]. split; [|congruence].
      intros a Ha Hi. destruct (HA a Ha Hi). congruence.
    - intros (_ & H2 & _). destruct H2 as [-> ->]; [congruence|auto|now left]. }
  destruct (find _ args) as [a|] eqn:F.
  - apply find_some in F as [Ha Hi]. split.
    + destruct (propArgs a) eqn:P; [intros [<-|[]]|intros []].
      split; [congruence|]. split; [congruence|]. split; [|intros _ _ N; destruct (N a Ha Hi)].
      intros b Hb Hib. rewrite (HU b a Hib Hi). auto.
    + intros (_ & _ & H3 & _). destruct (H3 a Ha Hi) as [-> ->]. now left.
  - pose proof (find_none _ _ F) as N. cbn in N. split.
    + intros [<-|[]]. split; [auto|]. split; [congruence|]. split; [|auto].
      intros a Ha Hi. rewrite (N a Ha) in Hi. discriminate.
    + intros (_ & _ & _ & H4). left. symmetry. apply H4; try congruence. intros a Ha. rewrite (N a Ha). discriminate.
Qed.
Print Assumptions C50_alongside_as_documented.

(** The exception: for a global that is passed as argument the predicate of the
    arguments is not consulted. *)
Theorem C50_alongside_global_argument_refuted : exists (isZero isConstant : nat -> bool) propArgs args d,
  In d args /\ propArgs d = false /\ isZero d = false /\
  In d (alongside isZero isConstant Nat.eqb (fun x => x) propArgs true args d).
Proof.
  exists (Nat.eqb 0), (fun d => d <=? 1), (fun _ => false), [1], 1. repeat split; try (now left).
Qed.
Print Assumptions C50_alongside_global_argument_refuted.

(** Into the callee: exactly the documented facts, minus the ones of an sret
    argument, plus the va_list variables for surplus arguments. *)
Theorem C50_to_callee_exact : forall (V D : Type) (isZero isConstant : D -> bool) (mk : V -> D) (moved : D -> D)
  propArg propGlobals propZero args f d,
  moved d = d -> cDecl f = false -> arityOk args f = true ->
  exists l, toCallee isZero isConstant mk moved propArg propGlobals propZero args f d = Some l /\ forall d',
  In d' l <->
    let k := if cSret f then (if cParams f then 0 else 1) else 0 in
    docCallee (fun d => isZero d = true) (fun d => isConstant d = true) mk propArg propGlobals propZero
              (skipn k args) (skipn k (cParams f)) d d' \/
    varargIn mk propArg args (cParams f) (cVaLists f) d d'.
Proof.
  intros V D isZero isConstant mk moved propArg propGlobals propZero args f d HM HD HA.
  unfold toCallee. rewrite HD, HA. cbn [negb]. eexists. split; [reflexivity|]. intros d'. cbv zeta.
  replace (if (propZero && isZero d) || (propGlobals && negb (isZero d) && isConstant d) then moved d else d) with d
    by (destruct (_ || _); auto).
  replace (match cParams f with [] => 0 | _ :: _ => if cSret f then 1 else 0 end)
    with (if cSret f then (if cParams f then 0 else 1) else 0) by (destruct (cSret f), (cParams f); reflexivity).
  set (k := if cSret f then _ else 0).
  apply arityOk_spec in HA as [HA _].
  assert (Hk : k <= length (cParams f)) by (unfold k; destruct (cSret f), (cParams f); cbn; lia).
  rewrite !in_app_iff. unfold docCallee.
  rewrite (mapped_In mk (fun pa => propArg (snd pa) d) fst). cbn [fst snd].
  assert (E1 : In d' (if (propZero && isZero d) || (propGlobals && negb (isZero d) && isConstant d) then [d] else []) <->
     (isZero d = true /\ propZero = true /\ d' = d) \/ (isConstant d = true /\ isZero d <> true /\ propGlobals = true /\ d' = d)).
  { destruct propZero, propGlobals, (isZero d), (isConstant d); cbn; intuition congruence. }
  assert (E2 : In d' (if existsb (fun a => propArg a d) (skipn (length (skipn k (cParams f))) (skipn k args)) then map mk (cVaLists f) else []) <->
     varargIn mk propArg args (cParams f) (cVaLists f) d d').
  { rewrite skipn_length. unfold varargIn. destruct (existsb _ _) eqn:E.
    - apply existsb_exists in E as (a & Ha & Hp). apply In_nth_error in Ha as [i Hi]. rewrite !nth_skipn in Hi.
      rewrite in_map_iff. split.
      + intros (v & <- & Hv). exists (k + (length (cParams f) - k + i)), a, v. split; [lia|]. auto.
      + intros (_ & _ & v & _ & _ & _ & Hv & ->). eauto.
    - split; [intros []|]. intros (i & a & v & Hi & Hn & Hp & _).
      assert (X : existsb (fun a => propArg a d) (skipn (length (cParams f) - k) (skipn k args)) = true); [|congruence].
      apply existsb_exists. exists a. split; auto. apply (nth_error_In _ (i - length (cParams f))).
      rewrite !nth_skipn. replace (k + _) with i by lia. exact Hn. }
  rewrite E1, E2. split.
  - intros [H|[(i & p & a & Hp & Ha & H)|H]]; [left; tauto| |tauto]. left. right. right. exists i, a, p. tauto.
  - intros [[H|[H|(i & a & p & Ha & Hp & H)]]|H]; [tauto|tauto| |tauto]. right. left. exists i, p, a. tauto.
Qed.
Print Assumptions C50_to_callee_exact.

(** The documented formula for an ordinary call. *)
Theorem C50_to_callee_as_documented : forall (V D : Type) (isZero isConstant : D -> bool) (mk : V -> D) (moved : D -> D)
  propArg propGlobals propZero args f d,
  moved d = d -> cDecl f = false -> cSret f = false -> length args = length (cParams f) ->
  exists l, toCallee isZero isConstant mk moved propArg propGlobals propZero args f d = Some l /\ forall d',
  In d' l <->
    docCallee (fun d => isZero d = true) (fun d => isConstant d = true) mk propArg propGlobals propZero args (cParams f) d d'.
Proof.
  intros V D isZero isConstant mk moved propArg propGlobals propZero args f d HM HD HS HL.
  destruct (C50_to_callee_exact V D isZero isConstant mk moved propArg propGlobals propZero args f d HM HD) as (l & E & H).
  { apply arityOk_spec. split; [lia|auto]. }
  exists l. split; auto. intros d'. rewrite H, HS. cbv zeta. cbn [skipn]. split; [|auto].
  intros [A|(i & a & v & Hi & Hn & _)]; auto. apply nth_lt in Hn. lia.
Qed.
Print Assumptions C50_to_callee_as_documented.

(** The assertions fail exactly for too few arguments and for surplus arguments
    of a function that is not variadic; never for a declaration. *)
Theorem C50_to_callee_defined : forall (V D : Type) (isZero isConstant : D -> bool) (mk : V -> D) (moved : D -> D)
  propArg propGlobals propZero args f d,
  toCallee isZero isConstant mk moved propArg propGlobals propZero args f d = None <->
  cDecl f = false /\ (length args < length (cParams f) \/ (length (cParams f) < length args /\ cVarArg f = false)).
Proof.
  intros. unfold toCallee. destruct (cDecl f); [split; [discriminate|intros [? _]; discriminate]|].
  destruct (arityOk args f) eqn:E; cbn [negb].
  - apply arityOk_spec in E. split; [discriminate|]. intros [_ H]. destruct (cVarArg f); intuition (try lia; try discriminate).
  - split; auto. intros _. split; auto. destruct (lt_dec (length args) (length (cParams f))); auto. right.
    destruct (Nat.eq_dec (length args) (length (cParams f))) as [Q|Q].
    + rewrite (proj2 (arityOk_spec args f)) in E; [discriminate|]. split; [lia|auto].
    + split; [lia|]. destruct (cVarArg f) eqn:A; auto.
      rewrite (proj2 (arityOk_spec args f)) in E; [discriminate|]. split; [lia|auto].
Qed.
Print Assumptions C50_to_callee_defined.

(** Documented f(ax) = {px}: not for an sret parameter. *)
Theorem C50_to_callee_sret_refuted : exists (f : callee nat) args d a p l,
  cDecl f = false /\ nth_error args 0 = Some a /\ nth_error (cParams f) 0 = Some p /\ Nat.eqb a d = true /\
  toCallee (Nat.eqb 0) (Nat.eqb 0) (fun x => x) (fun x => x) Nat.eqb true true args f d = Some l /\ ~ In p l.
Proof.
  exists (mkCallee false [7] true false []), [3], 3, 3, 7, []. repeat split. intros [].
Qed.
Print Assumptions C50_to_callee_sret_refuted.

(** The source is moved into the result before the parameters are computed: for
    a fact type whose move empties it, a global passed as argument does not reach
    the parameter. *)
Theorem C50_to_callee_moved_refuted : exists (moved : nat -> nat) (f : callee nat) args d a p l,
  cDecl f = false /\ cSret f = false /\ nth_error args 0 = Some a /\ nth_error (cParams f) 0 = Some p /\ Nat.eqb a d = true /\
  toCallee (Nat.eqb 0) (fun d => d <=? 3) (fun x => x) moved Nat.eqb true true args f d = Some l /\ ~ In p l.
Proof.
  exists (fun _ => 100), (mkCallee false [7] false false []), [3], 3, 3, 7, [3]. repeat split. intros [E|[]]. discriminate.
Qed.
Print Assumptions C50_to_callee_moved_refuted.

(** Back to the caller: exactly the documented facts plus surplus arguments,
    except for the zero value. *)
Theorem C50_to_caller_exact : forall (V D : Type) (isZero isConstant : D -> bool) (mk : V -> D)
  propParam propRet propGlobals propZero args f ret cs d,
  arityOk args f = true -> (isZero d = true -> propZero = true \/ propGlobals = false) ->
  exists l, toCaller isZero isConstant mk propParam propRet propGlobals propZero (fun r => r) args f ret cs d = Some l /\ forall d',
  In d' l <->
    docCaller (fun d => isZero d = true) (fun d => isConstant d = true) mk propParam propRet propGlobals propZero
              args (cParams f) ret cs d d' \/
    varargOut mk propParam args (cParams f) (cVaLists f) d d'.
Proof.
  intros V D isZero isConstant mk propParam propRet propGlobals propZero args f ret cs d HA HZ.
  unfold toCaller. rewrite HA. cbn [negb]. eexists. split; [reflexivity|]. intros d'.
  apply arityOk_spec in HA as [HA _]. rewrite !in_app_iff. unfold docCaller.
  rewrite (mapped_In mk (fun pa => propParam (fst pa) d) snd). cbn [fst snd].
  assert (E1 : In d' (if propZero && isZero d then [d] else if propGlobals && isConstant d then [d] else []) <->
     (isZero d = true /\ propZero = true /\ d' = d) \/ (isConstant d = true /\ isZero d <> true /\ propGlobals = true /\ d' = d)).
  { destruct propZero, propGlobals, (isZero d), (isConstant d); cbn; intuition congruence. }
  assert (E2 : In d' (if existsb (fun v => propParam v d) (cVaLists f) then map mk (skipn (length (cParams f)) args) else []) <->
     varargOut mk propParam args (cParams f) (cVaLists f) d d').
  { unfold varargOut. destruct (existsb _ _) eqn:E.
    - apply existsb_exists in E as (v & Hv & Hp). rewrite in_map_iff. split.
      + intros (a & <- & Ha). apply In_nth_error in Ha as [i Hi]. rewrite nth_skipn in Hi.
        exists (length (cParams f) + i), a, v. split; [lia|]. auto.
      + intros (i & a & _ & Hi & Hn & _ & _ & ->). exists a. split; auto.
        apply (nth_error_In _ (i - length (cParams f))). rewrite nth_skipn. replace (_ + _) with i by lia. exact Hn.
    - split; [intros []|]. intros (i & a & v & _ & _ & Hv & Hp & _).
      assert (X : existsb (fun v => propParam v d) (cVaLists f) = true); [|congruence].
      apply existsb_exists. eauto. }
  assert (E3 : In d' match ret with Some r => if propRet r d then [mk cs] else [] | None => [] end <->
     exists r, ret = Some r /\ propRet r d = true /\ d' = mk cs).
  { destruct ret as [r|]; [|split; [intros []|intros (r & ? & _); discriminate]].
    destruct (propRet r d) eqn:E; cbn; split.
    - intros [<-|[]]. exists r. auto.
    - intros (_ & _ & _ & ->). auto.
    - intros [].
    - intros (r' & [= <-] & X & _). congruence. }
  rewrite E1, E2, E3. split.
  - intros [H|[(i & p & a & Hp & Ha & H)|[H|H]]]; [left; tauto| |tauto|tauto]. left. right. right. left. exists i, a, p. tauto.
  - intros [[H|[H|[(i & a & p & Ha & Hp & H)|H]]]|H]; [tauto|tauto| |tauto|tauto]. right. left. exists i, p, a. tauto.
Qed.
Print Assumptions C50_to_caller_exact.

(** Documented f(zero) = {} if PropagateZeroToCaller is false: the zero value is
    always propagated as a global. *)
Theorem C50_to_caller_zero_is_a_global : forall (V D : Type) (isZero isConstant : D -> bool) (mk : V -> D) propParam propRet args f ret cs d,
  (forall d, isZero d = true -> isConstant d = true) -> arityOk args f = true -> isZero d = true ->
  exists l, toCaller isZero isConstant mk propParam propRet true false (fun r => r) args f ret cs d = Some l /\ In d l.
Proof.
  intros V D isZero isConstant mk propParam propRet args f ret cs d ZC HA HZ. unfold toCaller. rewrite HA. cbn [negb andb].
  rewrite (ZC d HZ). eexists. split; [reflexivity|]. now left.
Qed.
Print Assumptions C50_to_caller_zero_is_a_global.
Theorem C50_to_caller_zero_refuted : exists (f : callee nat) args cs l, arityOk args f = true /\
  toCaller (Nat.eqb 0) (fun d => d <=? 1) (fun x => x) Nat.eqb Nat.eqb true false (fun r => r) args f None cs 0 = Some l /\
  ~ docCaller (fun d => Nat.eqb 0 d = true) (fun d => (d <=? 1) = true) (fun x => x) Nat.eqb Nat.eqb true false args (cParams f) None cs 0 0 /\
  In 0 l.
Proof.
  exists (mkCallee false [7] false false []), [3], 5, [0]. repeat split; [|now left].
  intros [(_ & E & _)|[(_ & N & _)|[([|[|i]] & a & p & _ & E & E2 & _)|(r & E & _)]]]; try discriminate.
  - now elim N.
  - injection E as <-. discriminate.
Qed.
Print Assumptions C50_to_caller_zero_refuted.
(** ... in contrast to the direction into the callee. *)
Theorem C50_to_callee_drops_zero : forall (V D : Type) (isZero isConstant : D -> bool) (mk : V -> D) (moved : D -> D) propArg propGlobals args f d l,
  isZero d = true -> (forall a, propArg a d = false) ->
  toCallee isZero isConstant mk moved propArg propGlobals false args f d = Some l -> l = [].
Proof.
  intros V D isZero isConstant mk moved propArg propGlobals args f d l HZ HP. unfold toCallee. destruct (cDecl f); [now intros [= <-]|].
  destruct (negb _); [discriminate|]. rewrite HZ. cbn [negb andb orb]. rewrite andb_false_r. cbn [andb]. intros [= <-]. cbn [app].
  assert (E : forall l : list (V * V), flat_map (fun pa : V * V => if propArg (snd pa) d then [mk (fst pa)] else []) l = []).
  { induction l as [|x l IH]; cbn; auto. now rewrite HP, IH. }
  rewrite E. cbn [app]. destruct (existsb _ _) eqn:X; auto. apply existsb_exists in X as (a & _ & X). congruence.
Qed.
Print Assumptions C50_to_callee_drops_zero.

(** With the default predicates a fact of an argument that is passed to a
    parameter comes back from the parameter ... *)
Theorem C50_argument_round_trip : forall (V : Type) (EV : EqDec V) isZero isConstant (args : list V) f cs ret a lc,
  cDecl f = false ->
  toCallee isZero isConstant (fun x => x) (fun x => x) (fun x y => eqb x y) true true args f a = Some lc ->
  forall i p, nth_error args i = Some a -> nth_error (cParams f) i = Some p -> (cSret f = false \/ 0 < i) ->
  In p lc /\ exists lr, toCaller isZero isConstant (fun x => x) (fun x y => eqb x y) (fun x y => eqb x y) true true (fun r => r) args f ret cs p = Some lr /\
                        In a lr.
Proof.
  intros V EV isZero isConstant args f cs ret a lc HD HC i p Ha Hp HS.
  assert (HA : arityOk args f = true).
  { unfold toCallee in HC. rewrite HD in HC. destruct (arityOk args f); auto. discriminate. }
  split.
  - destruct (C50_to_callee_exact V V isZero isConstant (fun x => x) (fun x => x) (fun x y => eqb x y) true true args f a eq_refl HD HA)
      as (l & E & H). rewrite HC in E. injection E as <-. apply H. cbv zeta. left. right. right.
    destruct (cSret f) eqn:Es.
    + destruct HS as [|HS]; [discriminate|]. destruct i as [|i]; [lia|].
      destruct (cParams f) as [|p0 ps]; [discriminate|]. destruct args as [|a0 as_]; [discriminate|]. cbn [nth_error] in *.
      exists i, a, p. split; [exact Ha|]. split; [exact Hp|]. split; [apply eqb_refl|reflexivity].
    + exists i, a, p. split; [exact Ha|]. split; [exact Hp|]. split; [apply eqb_refl|reflexivity].
  - destruct (C50_to_caller_exact V V isZero isConstant (fun x => x) (fun x y => eqb x y) (fun x y => eqb x y) true true args f ret cs p HA)
      as (l & E & H); [auto|]. exists l. split; [exact E|]. apply H. left. right. right. left. exists i, a, p.
    split; [exact Ha|]. split; [exact Hp|]. split; [apply eqb_refl|reflexivity].
Qed.
Print Assumptions C50_argument_round_trip.
(** ... but with arguments killed along the call, the fact of an sret argument is
    lost even if the callee does nothing. *)
Theorem C50_sret_argument_lost_refuted : exists (f : callee nat) args a lc,
  In a args /\ cDecl f = false /\ arityOk args f = true /\
  toCallee (Nat.eqb 0) (Nat.eqb 0) (fun x => x) (fun x => x) Nat.eqb true true args f a = Some lc /\
  lc = [] /\ alongside (Nat.eqb 0) (Nat.eqb 0) Nat.eqb (fun x => x) (fun _ => false) true args a = [].
Proof. exists (mkCallee false [7] true false []), [3], 3, []. repeat split. now left. Qed.
Print Assumptions C50_sret_argument_lost_refuted.

(** Stores: the documented strong update; through pointer casts also on the base
    pointer. *)
Theorem C50_strong_update_if : forall (V : Type) (EV : EqDec V) (b : V) pred x x',
  In x' (strongUpdateIf b b pred x) <-> docStore b (fun y => pred y = true) x x'.
Proof.
  intros V EV b pred x x'. unfold strongUpdateIf, docStore. rewrite eqb_refl.
  destruct (eqb x b) eqn:E.
  - apply eqb_eq in E as ->. split; [intros []|intros [N _]; now elim N].
  - apply eqb_false in E. destruct (pred x); cbn; intuition (try congruence).
Qed.
Print Assumptions C50_strong_update_if.
Theorem C50_strong_update : forall (V : Type) (EV : EqDec V) (b a : V) x x',
  In x' (strongUpdate b b a x) <-> docStore b (fun y => y = a) x x'.
Proof.
  intros V EV b a x x'. unfold strongUpdate, docStore. rewrite eqb_refl.
  destruct (eqb x b) eqn:E.
  - apply eqb_eq in E as ->. split; [intros []|intros [N _]; now elim N].
  - apply eqb_false in E. destruct (eqb x a) eqn:Ea; [apply eqb_eq in Ea|apply eqb_false in Ea]; cbn; intuition (try congruence).
Qed.
Print Assumptions C50_strong_update.
Theorem C50_strong_update_through_cast : forall (V : Type) (EV : EqDec V) (ptr base a : V) pred x x', base <> ptr ->
  (In x' (strongUpdateIf ptr base pred x) <->
     docStore ptr (fun y => pred y = true) x x' /\ x <> base \/ docStore base (fun y => pred y = true) x x' /\ x <> ptr) /\
  (In x' (strongUpdate ptr base a x) <->
     docStore ptr (fun y => y = a) x x' /\ x <> base \/ docStore base (fun y => y = a) x x' /\ x <> ptr).
Proof.
  intros V EV ptr base a pred x x' N. unfold strongUpdateIf, strongUpdate, docStore.
  replace (eqb base ptr) with false by (symmetry; now apply neq_eqb).
  destruct (eqb x ptr) eqn:E1; [apply eqb_eq in E1|apply eqb_false in E1];
  (destruct (eqb x base) eqn:E2; [apply eqb_eq in E2|apply eqb_false in E2]); cbn [orb].
  1-3: split; (split; [intros []|intuition congruence]).
  split.
  - destruct (pred x); cbn; intuition (try congruence).
  - destruct (eqb x a) eqn:Ea; [apply eqb_eq in Ea|apply eqb_false in Ea]; cbn; intuition (try congruence).
Qed.
Print Assumptions C50_strong_update_through_cast.

(** A call f(3, 4, 5) of a variadic f(p7): 4 reaches the va_list variable 9. *)
Example C50_ex : let f := mkCallee false [7] false true [9] in
  arityOk [3; 4; 5] f = true /\
  toCallee (Nat.eqb 0) (fun d => d <=? 1) (fun x => x) (fun x => x) Nat.eqb true true [3; 4; 5] f 3 = Some [7] /\
  toCallee (Nat.eqb 0) (fun d => d <=? 1) (fun x => x) (fun x => x) Nat.eqb true true [3; 4; 5] f 4 = Some [9] /\
  toCallee (Nat.eqb 0) (fun d => d <=? 1) (fun x => x) (fun x => x) Nat.eqb true true [3; 4; 5] f 1 = Some [1] /\
  toCaller (Nat.eqb 0) (fun d => d <=? 1) (fun x => x) Nat.eqb Nat.eqb true true (fun r => r) [3; 4; 5] f (Some 8) 6 8 = Some [6] /\
  toCaller (Nat.eqb 0) (fun d => d <=? 1) (fun x => x) Nat.eqb Nat.eqb true true (fun r => r) [3; 4; 5] f (Some 8) 6 9 = Some [4; 5] /\
  alongside (Nat.eqb 0) (fun d => d <=? 1) Nat.eqb (fun x => x) (Nat.eqb 3) false [3; 4; 5] 3 = [3] /\
  alongside (Nat.eqb 0) (fun d => d <=? 1) Nat.eqb (fun x => x) (Nat.eqb 3) false [3; 4; 5] 4 = [] /\
  strongUpdate 2 2 3 3 = [3; 2].
Proof. repeat split. Qed.
