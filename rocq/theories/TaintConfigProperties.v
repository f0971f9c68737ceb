(** C62: taint configurations. *)
From Coq Require Import String Ascii List Bool Arith Lia.
From Verif Require Import Assoc TaintConfigModel TaintConfigSpec TaintConfigProofs.
Import ListNotations.
#[local] Existing Instance EqDec_tcname.
Open Scope string_scope.
Open Scope list_scope.

(** ** Reading *)
(** Category names are read in any case, and nothing else is read as one. *)
Theorem C62_category_names s k : k <> CNone -> (toTaintCategory s = k <-> sameText s (to_string k)).
Proof.
  intros N. rewrite <- lowers_same. unfold toTaintCategory, caseLower.
  destruct (String.eqb_spec (lowers s) (lowers "source")) as [E1|E1]; [|destruct (String.eqb_spec (lowers s) (lowers "sink")) as [E2|E2];
    [|destruct (String.eqb_spec (lowers s) (lowers "sanitizer")) as [E3|E3]]].
  - rewrite E1. destruct k; split; try reflexivity; try discriminate; try congruence.
  - rewrite E2. destruct k; split; try reflexivity; try discriminate; try congruence.
  - rewrite E3. destruct k; split; try reflexivity; try discriminate; try congruence.
  - destruct k; split; try discriminate; try contradiction.
Qed.
Print Assumptions C62_category_names.
Example names_ex : toTaintCategory "Source" = CSource /\ toTaintCategory "SINK" = CSink /\ toTaintCategory "sinks" = CNone.
Proof. repeat split. Qed.

(** A configuration is read back as it was written. *)
Theorem C62_parse fs vs : parseTaintConfig (Some (map writeFn fs)) (Some (map writeVar vs)) = Some (fs, vs).
Proof.
  assert (F : forall d, loadFunc (writeFn d) = Some (Some d)).
  { intros [n r so si sa al]. unfold loadFunc, writeFn. cbn [jfName jfRet jfParams jSource jSink jSanitizer fdName fdRet fdSource fdSink fdSanitizer fdAllSink].
    cbn [field getStr present orb]. rewrite !getNums_map, getSinks_map. destruct r; reflexivity. }
  assert (V : forall d, loadVar (writeVar d) = Some (Some d)).
  { intros [l n s c]. unfold loadVar, writeVar. cbn [jvLine jvName jvScope jvCat vdLine vdName vdScope vdCat]. destruct c; reflexivity. }
  assert (A : loadAll loadFunc (map writeFn fs) = Some fs).
  { induction fs as [|d fs IH]; [reflexivity|]. cbn [map loadAll]. rewrite F, IH. reflexivity. }
  assert (B : loadAll loadVar (map writeVar vs) = Some vs).
  { induction vs as [|d vs IH]; [reflexivity|]. cbn [map loadAll]. rewrite V, IH. reflexivity. }
  unfold parseTaintConfig, field. rewrite A, B. reflexivity.
Qed.
Print Assumptions C62_parse.

(** Unknown categories and unknown words for sinks are errors. *)
Theorem C62_parse_rejects j s ps l1 l2 :
  (jfRet j = Some (JStr s) -> toTaintCategory s = CNone -> loadFunc j = None) /\
  (jfParams j = Some ps -> jSink ps = Some (l1 ++ JStr s :: l2) -> s <> "all" -> loadFunc j = None).
Proof.
  split.
  - intros R C. unfold loadFunc. rewrite R. cbn [field getCat getStr]. rewrite C. destruct (field (jfName j) getStr ""); reflexivity.
  - intros P S N. unfold loadFunc. rewrite P, S. cbn [field].
    assert (G : getSinks (l1 ++ JStr s :: l2) = None).
    { clear S. induction l1 as [|[n|x] l1 IH]; cbn [app getSinks].
      - apply String.eqb_neq in N. rewrite N. reflexivity.
      - rewrite IH. reflexivity.
      - destruct (String.eqb x "all"); [|reflexivity]. rewrite IH. reflexivity. }
    rewrite G. destruct (field (jfName j) getStr ""), (field (jfRet j) getCat CNone), (field (jSource ps) getNums []); reflexivity.
Qed.
Print Assumptions C62_parse_rejects.

(** ** What is marked *)
(** Exactly the parameters, the calls and the local variables that the
    configuration describes.  Missing: names that stand for several functions or
    for removed ones, functions whose address is taken, members of structs (all
    refuted below). *)
Theorem C62_marks_partial m fs vs : uniqueNames m ->
  (forall d, In d fs -> unambiguous m (fdName d) /\
     (fdRet d <> CNone -> forall fn, candidate m (fdName d) fn -> onlyCalled m (fnName fn))) ->
  (forall d, In d vs -> ~ In (vdScope d) (mStructNames m)) ->
  exists c, fromData m fs vs = Some c /\
    forall k v, has c k v <-> (exists d, In d fs /\ marksFn m d k v) \/ (exists d, In d vs /\ marksVar m d k v).
Proof.
  intros U F V. destruct (addAll_ok m fs emptyConfig U F) as (c & E & H). unfold fromData. rewrite E.
  eexists. split; [reflexivity|]. intros k v. rewrite (addVariables_ok m vs c k v V), H.
  assert (N : ~ has emptyConfig k v) by (destruct k; cbn; auto). tauto.
Qed.
Print Assumptions C62_marks_partial.

(** The category of a value; sources come first. *)
Theorem C62_category c v :
  (getCategory c v = CSource <-> has c CSource v) /\
  (getCategory c v = CSink <-> has c CSink v /\ ~ has c CSource v) /\
  (getCategory c v = CSanitizer <-> has c CSanitizer v /\ ~ has c CSource v /\ ~ has c CSink v) /\
  (getCategory c v = CNone <-> forall k, ~ has c k v).
Proof.
  unfold getCategory, isSource, isSink, isSanitizer. cbn [has].
  destruct (isIn v (SourceValues c)) eqn:A; [apply isIn_in in A|assert (A' : ~ In v (SourceValues c)) by (rewrite <- isIn_in; congruence)].
  { repeat split; try discriminate; try tauto. intros X. exfalso. exact (X CSource A). }
  destruct (isIn v (SinkValues c)) eqn:B; [apply isIn_in in B|assert (B' : ~ In v (SinkValues c)) by (rewrite <- isIn_in; congruence)].
  { repeat split; try discriminate; try tauto. intros X. exfalso. exact (X CSink B). }
  destruct (isIn v (SanitizerValues c)) eqn:C; [apply isIn_in in C|assert (C' : ~ In v (SanitizerValues c)) by (rewrite <- isIn_in; congruence)].
  { repeat split; try discriminate; try tauto. intros X. exfalso. exact (X CSanitizer C). }
  repeat split; try discriminate; try tauto. intros _ []; cbn; tauto.
Qed.
Print Assumptions C62_category.

(** ** What happens at an instruction *)
(** Candidates for leaks: what the callback names, and the arguments of the sink
    parameters; mayLeakValuesAt tells whether there are any.  The same for
    sanitizers. *)
Theorem C62_leaks_and_sanitizers c cb i callee :
  (forall f, callee = Some f -> fnArgs f <= length (iOps i)) ->
  (exists l, leakCandidates c cb i callee = Some l /\
     (forall v, In v l <-> In v (called cb (iId i)) \/ exists f, callee = Some f /\ argOf (has c CSink) f (iOps i) v) /\
     (mayLeakValuesAt c cb i callee = true <-> l <> [])) /\
  (exists l, sanitized c cb i callee = Some l /\
     (forall v, In v l <-> In v (called cb (iId i)) \/ exists f, callee = Some f /\ argOf (has c CSanitizer) f (iOps i) v) /\
     (sanitizesValuesAt c cb i callee = true <-> l <> [])).
Proof.
  intros L.
  assert (G : forall k, k = CSink \/ k = CSanitizer -> forall marked, (forall v, marked v = true <-> has c k v) ->
    exists l, candidates marked cb i callee = Some l /\
     (forall v, In v l <-> In v (called cb (iId i)) \/ exists f, callee = Some f /\ argOf (has c k) f (iOps i) v) /\
     (anyCandidate marked cb i callee = true <-> l <> [])).
  { intros k _ marked M. unfold candidates, anyCandidate. destruct callee as [f|].
    - destruct (actuals_ok i marked f (fnArgs f) 0) as (l & E & H & Z); [lia|specialize (L f eq_refl); lia|].
      fold (params f) in E, Z. rewrite E. eexists. split; [reflexivity|]. split.
      + intros v. rewrite in_app_iff, H. split.
        * intros [X|(k' & K & X & Y)]; [auto|]. right. exists f. split; [reflexivity|]. exists k'. split; [lia|]. split; [apply M, X|exact Y].
        * intros [X|(f' & [= <-] & k' & K & X & Y)]; [auto|]. right. exists k'. split; [lia|]. split; [apply M, X|exact Y].
      + destruct (called cb (iId i)) as [|x xs]; cbn [orb app]; [|split; [discriminate|reflexivity]].
        rewrite Z. destruct (existsb marked (params f)); split; congruence.
    - eexists. split; [reflexivity|]. rewrite app_nil_r. split.
      + intros v. split; [auto|]. intros [X|(f & F & _)]; [exact X|discriminate].
      + destruct (called cb (iId i)); cbn; split; congruence. }
  split; apply G; auto; intros v; apply isIn_in.
Qed.
Print Assumptions C62_leaks_and_sanitizers.

(** Generated values: what the callback names, the arguments of the source
    parameters of the callee (without a callee, operands that are sources), and
    the instruction itself if it is a source. *)
Theorem C62_generated c cb i callee :
  (forall f, callee = Some f -> fnArgs f <= length (iOps i)) ->
  exists l, generated c cb i callee = Some l /\
    forall v, In v l <-> In v (called cb (iId i)) \/ (has c CSource v /\ v = VInst (iId i)) \/
      match callee with
      | Some f => argOf (has c CSource) f (iOps i) v
      | None => In v (iOps i) /\ has c CSource v
      end.
Proof.
  intros L. unfold generated.
  assert (S : forall v, In v (if isSource c (VInst (iId i)) then [VInst (iId i)] else []) <-> has c CSource v /\ v = VInst (iId i)).
  { intros v. destruct (isSource c (VInst (iId i))) eqn:E.
    - apply isIn_in in E. cbn. split; [intros [<-|[]]; auto|intros [_ ->]; auto].
    - split; [intros []|]. intros [X ->]. apply isIn_in in X. unfold isSource in E. congruence. }
  destruct callee as [f|].
  - destruct (actuals_ok i (isSource c) f (fnArgs f) 0) as (l & E & H & Z); [lia|specialize (L f eq_refl); lia|].
    fold (params f) in E. rewrite E. eexists. split; [reflexivity|]. intros v. rewrite !in_app_iff, S, H. unfold argOf. split.
    + intros [X|[(k & K & X & Y)|X]]; [auto| |auto]. right. right. exists k. split; [lia|]. split; [apply isIn_in, X|exact Y].
    + intros [X|[X|(k & K & X & Y)]]; [auto|auto|]. right. left. exists k. split; [lia|]. split; [apply isIn_in, X|exact Y].
  - eexists. split; [reflexivity|]. intros v. rewrite !in_app_iff, S, filter_In. unfold isSource. rewrite isIn_in. cbn [has]. tauto.
Qed.
Print Assumptions C62_generated.

(** generatesValuesAt agrees with it if there is no callee or no argument is a
    source.  Missing: the case refuted below. *)
Theorem C62_generates_partial c cb i callee :
  (forall f, callee = Some f -> fnArgs f <= length (iOps i)) ->
  (callee = None \/ forall v, In v (iOps i) -> ~ has c CSource v) ->
  exists l, generated c cb i callee = Some l /\ (generatesValuesAt c cb i callee = true <-> l <> []).
Proof.
  intros L A. unfold generated, generatesValuesAt.
  assert (Ex : forall l, existsb (isSource c) l = true <-> exists v, In v l /\ has c CSource v).
  { intros l. rewrite existsb_exists. split; intros (v & I & X); exists v; (split; [exact I|apply isIn_in, X]). }
  assert (Nil : forall (x y z : list val), x ++ y ++ z <> [] <-> x <> [] \/ y <> [] \/ z <> []).
  { intros [|a x] [|b y] [|d z]; cbn; split; intros X; try tauto; try discriminate; try (left; discriminate); try (right; left; discriminate); right; right; discriminate. }
  assert (S : isSource c (VInst (iId i)) = true <-> (if isSource c (VInst (iId i)) then [VInst (iId i)] else []) <> []).
  { destruct (isSource c (VInst (iId i))); split; congruence. }
  assert (Cb : (match called cb (iId i) with [] => false | _ => true end) = true <-> called cb (iId i) <> []).
  { destruct (called cb (iId i)); split; congruence. }
  destruct callee as [f|].
  - destruct A as [A|A]; [discriminate|].
    destruct (actuals_ok i (isSource c) f (fnArgs f) 0) as (l & E & H & Z); [lia|specialize (L f eq_refl); lia|].
    fold (params f) in E, Z. rewrite E. eexists. split; [reflexivity|]. rewrite Nil, !orb_true_iff, S, Cb.
    assert (O : ~ existsb (isSource c) (iOps i) = true). { rewrite Ex. intros (v & I & X). exact (A v I X). }
    assert (P : existsb (isSource c) (params f) = true <-> l <> []). { rewrite Z. destruct (existsb (isSource c) (params f)); split; congruence. }
    rewrite P. tauto.
  - eexists. split; [reflexivity|]. rewrite Nil, !orb_true_iff, S, Cb.
    assert (P : existsb (isSource c) (iOps i) = true <-> filter (isSource c) (iOps i) <> []).
    { clear. induction (iOps i) as [|a l IH]; cbn; [split; congruence|]. destruct (isSource c a); cbn; [split; congruence|exact IH]. }
    rewrite P. assert (false <> true) by discriminate. tauto.
Qed.
Print Assumptions C62_generates_partial.

(** Seeds: sources that are instructions at themselves, parameters of functions
    with a body at the first instructions. *)
Theorem C62_seeds m c n v : uniqueNames m ->
  (In (n, v) (initialSeeds m c) <-> has c CSource v /\
     (v = VInst n \/ exists fn k, In fn (mFuncs m) /\ v = VArg (fnName fn) k /\ fnInsts fn <> [] /\ In n (fnStarts fn))).
Proof.
  intros U. unfold initialSeeds. rewrite in_flat_map. cbn [has]. split.
  - intros (x & I & J). destruct x as [x|f k|g|f|x]; try destruct J as [].
    + inversion H; subst. auto.
    + destruct H.
    + destruct (getFunction m f) as [fn|] eqn:E; [|destruct J]. destruct (isDeclaration fn) eqn:D; [destruct J|].
      apply in_map_iff in J. destruct J as (n' & [= <- <-] & J). split; [exact I|]. right. apply getFunction_in in E. destruct E as [E <-].
      exists fn, k. repeat split; try assumption. intros X. unfold isDeclaration in D. rewrite X in D. discriminate.
  - intros (I & [->|(fn & k & F & -> & B & S)]).
    + exists (VInst n). split; [exact I|]. left. reflexivity.
    + exists (VArg (fnName fn) k). split; [exact I|]. rewrite (getFunction_find m fn U F).
      unfold isDeclaration. destruct (fnInsts fn) as [|i is]; [contradiction|]. apply in_map_iff. exists n. auto.
Qed.
Print Assumptions C62_seeds.

(** ** An example *)
Definition prog : modul := mkMod
  [mkF "main" 2 [mkI 10 KOther []; mkI 11 (KDeclare "x" 5 (VInst 10)) [VInst 10]; mkI 12 KCall [VFun "src"];
                 mkI 13 KCall [VInst 12; VInst 10; VFun "snk"]] [10];
   mkF "src" 0 [] []; mkF "snk" 2 [] []; mkF "_Z3sani" 1 [mkI 20 KOther []] [20]]
  [mkSub true "san" "_Z3sani"; mkSub false "snk" ""; mkSub true "main" ""] ["S"] [7] (fun _ => []).
Definition prog_fs := [mkFD "src" CSource [] [] [] false; mkFD "snk" CNone [] [] [] true; mkFD "san" CNone [0] [] [0; 4] false].
Definition prog_vs := [mkVD 5 "x" "main" CSource; mkVD 6 "x" "main" CSink].
Example prog_marks : exists c, fromData prog prog_fs prog_vs = Some c /\
  has c CSource (VInst 12) /\ has c CSource (VInst 10) /\ has c CSink (VArg "snk" 1) /\ has c CSanitizer (VArg "_Z3sani" 0) /\
  ~ has c CSink (VInst 10) /\ ~ has c CSanitizer (VArg "_Z3sani" 4) /\ ~ has c CSource (VInst 13).
Proof. eexists. split; [reflexivity|]. cbn. intuition discriminate. Qed.
Example prog_ok : uniqueNames prog /\
  (forall d, In d prog_fs -> unambiguous prog (fdName d) /\
     (fdRet d <> CNone -> forall fn, candidate prog (fdName d) fn -> onlyCalled prog (fnName fn))) /\
  (forall d, In d prog_vs -> ~ In (vdScope d) (mStructNames prog)).
Proof.
  split; [|split].
  - unfold uniqueNames. cbn. repeat (constructor; [cbn; intuition discriminate|]). constructor.
  - assert (A : forall n, unambiguous prog n).
    { intros n. split.
      - intros s s' I J (D & L & _) (D' & L' & _). cbn in I, J.
        destruct I as [<-|[<-|[<-|[]]]]; cbn in D, L; try congruence.
        destruct J as [<-|[<-|[<-|[]]]]; cbn in D', L'; congruence.
      - intros s I (D & L & _). cbn in I. destruct I as [<-|[<-|[<-|[]]]]; cbn in D, L; try congruence.
        exists (mkF "_Z3sani" 1 [mkI 20 KOther []] [20]). split; [cbn; tauto|reflexivity]. }
    intros d I. split; [apply A|]. intros R fn C. cbn in I. destruct I as [<-|[<-|[<-|[]]]]; cbn in R; try congruence.
    assert (E : fnName fn = "src").
    { destruct C as (_ & [(s & J & (_ & _ & X) & _)|(_ & X)]); [|exact X]. cbn in J, X.
      repeat (destruct J as [<-|J]; [cbn in X; destruct X; discriminate|]). contradiction. }
    rewrite E. split; [reflexivity|]. intros g i G Ii O. cbn in G.
    repeat (destruct G as [<-|G]; [cbn in Ii; repeat (destruct Ii as [<-|Ii];
      [cbn in O; first [exfalso; intuition discriminate|split; [reflexivity|]; exists []; split; [reflexivity|intros []]]|]); contradiction|]). contradiction.
  - intros d I. cbn in I. destruct I as [<-|[<-|[]]]; cbn; intuition discriminate.
Qed.

(** ** What fails *)
(** Only one of several overloads is marked. *)
Definition overloads : modul := mkMod [mkF "_Z1fi" 1 [mkI 1 KOther []] [1]; mkF "_Z1fc" 1 [mkI 2 KOther []] [2]]
  [mkSub true "f" "_Z1fi"; mkSub true "f" "_Z1fc"] [] [] (fun _ => []).
Theorem C62_overload_refuted : exists m fs c d v, fromData m fs [] = Some c /\ In d fs /\ marksFn m d CSource v /\ ~ has c CSource v.
Proof.
  exists overloads, [mkFD "f" CNone [0] [] [] false], (mkC [VArg "_Z1fi" 0] [] []), (mkFD "f" CNone [0] [] [] false), (VArg "_Z1fc" 0).
  split; [reflexivity|]. split; [left; reflexivity|]. split; [|cbn; intuition discriminate].
  exists (mkF "_Z1fc" 1 [mkI 2 KOther []] [2]). split.
  - split; [cbn; tauto|]. left. exists (mkSub true "f" "_Z1fc"). split; [cbn; tauto|]. split; [|reflexivity].
    split; [reflexivity|]. split; [discriminate|left; reflexivity].
  - left. exists 0. cbn. auto.
Qed.
Print Assumptions C62_overload_refuted.

(** A function that was inlined everywhere and removed still has its subprogram:
    naming it in the configuration dereferences a null pointer. *)
Theorem C62_removed_refuted : exists m d s, In s (mSubs m) /\ stands (fdName d) s /\
  (forall fn, In fn (mFuncs m) -> fnName fn <> sLinkage s) /\ fromData m [d] [] = None.
Proof.
  exists (mkMod [mkF "main" 0 [mkI 1 KOther []] [1]] [mkSub true "f" "_Z1fi"] [] [] (fun _ => [])),
         (mkFD "f" CSource [] [] [] false), (mkSub true "f" "_Z1fi").
  split; [left; reflexivity|]. split; [repeat split; [discriminate|left; reflexivity]|].
  split; [|reflexivity]. intros fn [<-|[]]. discriminate.
Qed.
Print Assumptions C62_removed_refuted.

(** A call that only gets the address of a source function becomes a source. *)
Definition passed : modul := mkMod [mkF "main" 0 [mkI 1 KCall [VFun "src"; VFun "register"]] [1]; mkF "src" 0 [] []; mkF "register" 1 [] []]
  [] [] [] (fun _ => []).
Theorem C62_address_refuted : exists m d c n, fromData m [d] [] = Some c /\ has c CSource (VInst n) /\
  unambiguous m (fdName d) /\ ~ marksFn m d CSource (VInst n).
Proof.
  exists passed, (mkFD "src" CSource [] [] [] false), (mkC [VInst 1] [] []), 1.
  split; [reflexivity|]. split; [left; reflexivity|]. split; [split; [intros s s' []|intros s []]|].
  intros (fn & (_ & [(s & [] & _)|(_ & N)]) & [(i & X & _)|(_ & _ & n & [= <-] & f & i & args & F & I & E & _ & O)]); [discriminate|].
  rewrite N in O. cbn in F. destruct F as [<-|[<-|[<-|[]]]]; cbn in I; [|destruct I|destruct I]. destruct I as [<-|[]]. cbn in O.
  destruct args as [|a [|b args]]; try discriminate. destruct args; discriminate.
Qed.
Print Assumptions C62_address_refuted.

(** A member of a struct is described as a sink and a local variable as a
    source: accesses to members are marked as both, for every struct type, if
    only the name begins like that of the member. *)
Definition members : modul := mkMod
  [mkF "main" 0 [mkI 1 (KGep (Some 8) "idx") []] [1]] [] ["S"] [7; 8] (fun _ => []).
Theorem C62_member_refuted : exists m vs c i st, fromData m [] vs = Some c /\
  In i (allInsts m) /\ iKind i = KGep (Some st) "idx" /\ has c CSink (VInst (iId i)) /\ has c CSource (VInst (iId i)) /\
  (forall d, In d vs -> vdName d <> "idx") /\ (forall d, In d vs -> vdCat d = CSource -> vdScope d = "main").
Proof.
  exists members, [mkVD 3 "id" "S" CSink; mkVD 5 "y" "main" CSource], (mkC [VInst 1] [VInst 1] []), (mkI 1 (KGep (Some 8) "idx") []), 8.
  split; [reflexivity|]. split; [left; reflexivity|]. split; [reflexivity|]. split; [left; reflexivity|]. split; [left; reflexivity|].
  split; intros d [<-|[<-|[]]]; cbn; try discriminate; reflexivity.
Qed.
Print Assumptions C62_member_refuted.

(** generatesValuesAt says yes for a call that gets a source as argument, where
    nothing is generated. *)
Theorem C62_generates_refuted : exists c i f, fnArgs f <= length (iOps i) /\
  generatesValuesAt c None i (Some f) = true /\ generated c None i (Some f) = Some [].
Proof. exists (mkC [VInst 10] [] []), (mkI 13 KCall [VInst 10; VFun "snk"]), (mkF "snk" 1 [] []). split; [cbn; lia|]. split; reflexivity. Qed.
Print Assumptions C62_generates_refuted.

(** Return values that are described as sanitized or as sinks have no effect at
    the calls. *)
Theorem C62_return_refuted : exists m fs c n i f, fromData m fs [] = Some c /\ In i (allInsts m) /\ iId i = n /\ calls m n (fnName f) /\
  In f (mFuncs m) /\ has c CSanitizer (VInst n) /\ sanitizesValuesAt c None i (Some f) = false /\ sanitized c None i (Some f) = Some [] /\
  has c CSink (VInst n) /\ mayLeakValuesAt c None i (Some f) = false /\ leakCandidates c None i (Some f) = Some [].
Proof.
  exists (mkMod [mkF "main" 0 [mkI 1 KCall [VInst 0; VFun "san"]] [1]; mkF "san" 1 [] []] [] [] [] (fun _ => [])),
    [mkFD "san" CSanitizer [] [] [] false; mkFD "san" CSink [] [] [] false], (mkC [] [VInst 1] [VInst 1]), 1, (mkI 1 KCall [VInst 0; VFun "san"]), (mkF "san" 1 [] []).
  split; [reflexivity|]. split; [left; reflexivity|]. split; [reflexivity|]. split.
  { exists (mkF "main" 0 [mkI 1 KCall [VInst 0; VFun "san"]] [1]), (mkI 1 KCall [VInst 0; VFun "san"]), [VInst 0]. cbn. auto 7. }
  split; [cbn; auto|]. split; [left; reflexivity|]. split; [reflexivity|]. split; [reflexivity|]. split; [left; reflexivity|]. split; reflexivity.
Qed.
Print Assumptions C62_return_refuted.

(** A call with fewer arguments than the callee has parameters: the candidate for
    a leak is the callee operand itself. *)
Theorem C62_few_arguments_refuted : exists c i f, In (VFun (fnName f)) (iOps i) /\ leakCandidates c None i (Some f) = Some [VFun (fnName f)].
Proof. exists (mkC [] [VArg "snk" 0] []), (mkI 1 KCall [VFun "snk"]), (mkF "snk" 1 [] []). split; [left; reflexivity|reflexivity]. Qed.
Print Assumptions C62_few_arguments_refuted.

(** ** Annotations *)
(** Exactly the annotated variables (for a parameter: the parameter) and the
    calls of the annotated functions are marked.  Missing: see below. *)
Theorem C62_annotations_partial m a :
  (forall x s, In (x, s) (aLocal a) -> exists v, x = Cast v) ->
  (forall g s, In (g, s) (aGlobal a) -> exists f, g = Some f /\ onlyCalled m f) ->
  exists c, fromAnnotations m a = Some c /\
    forall k v, k <> CNone -> (has c k v <->
      (exists w s, In (Cast w, s) (aLocal a) /\ toTaintCategory (drop 4 s) = k /\
         (find isArg (aStored a w) = Some v \/ find isArg (aStored a w) = None /\ v = w)) \/
      (exists f s n, In (Some f, s) (aGlobal a) /\ toTaintCategory (drop 4 s) = k /\ v = VInst n /\ calls m n f)).
Proof.
  intros Lo Gl. unfold fromAnnotations.
  assert (A : forall l c, (forall x s, In (x, s) l -> exists v, x = Cast v) -> exists c', fold_left (addLocal a) l (Some c) = Some c' /\
    forall k v, k <> CNone -> (has c' k v <-> has c k v \/ exists w s, In (Cast w, s) l /\ toTaintCategory (drop 4 s) = k /\
         (find isArg (aStored a w) = Some v \/ find isArg (aStored a w) = None /\ v = w))).
  { induction l as [|[x s] l IH]; intros c H.
    - exists c. split; [reflexivity|]. intros k v _. split; [auto|]. intros [X|(w & s & [] & _)]; exact X.
    - destruct (H x s (or_introl eq_refl)) as (w & ->). cbn [fold_left addLocal fst snd originalValue].
      edestruct IH as (c' & E & Q). { intros y t I. apply (H y t). right. exact I. }
      exists c'. split; [exact E|]. intros k v N. rewrite (Q k v N), has_addCat. split.
      + intros [[X|(K & _ & V)]|(w' & s' & I & X)]; [left; exact X| |right; exists w', s'; split; [right; exact I|exact X]].
        right. exists w, s. split; [left; reflexivity|]. split; [congruence|]. destruct (find isArg (aStored a w)); [left|right]; [congruence|auto].
      + intros [X|(w' & s' & [[= <- <-]|I] & K & X)]; [auto| |right; exists w', s'; auto].
        left. right. split; [congruence|]. split; [congruence|]. destruct X as [->|[-> ->]]; reflexivity. }
  assert (B : forall l c, (forall g s, In (g, s) l -> exists f, g = Some f /\ onlyCalled m f) -> exists c', fold_left (addGlobal m) l (Some c) = Some c' /\
    forall k v, k <> CNone -> (has c' k v <-> has c k v \/ exists f s n, In (Some f, s) l /\ toTaintCategory (drop 4 s) = k /\ v = VInst n /\ calls m n f)).
  { induction l as [|[g s] l IH]; intros c H.
    - exists c. split; [reflexivity|]. intros k v _. split; [auto|]. intros [X|(w & s & n & [] & _)]; exact X.
    - destruct (H g s (or_introl eq_refl)) as (f & -> & O). cbn [fold_left addGlobal fst snd].
      edestruct IH as (c' & E & Q). { intros y t I. apply (H y t). right. exact I. }
      exists c'. split; [exact E|]. intros k v N. rewrite (Q k v N), has_addCats, filter_In, (users_calls m f v O). split.
      + intros [[X|(K & _ & (n & -> & C) & _)]|(f' & s' & n & I & X)]; [left; exact X| |right; exists f', s', n; split; [right; exact I|exact X]].
        right. exists f, s, n. split; [left; reflexivity|]. auto.
      + intros [X|(f' & s' & n & [[= <- <-]|I] & K & -> & C)]; [auto| |right; exists f', s', n; auto].
        left. right. split; [congruence|]. split; [congruence|]. split; [exists n; auto|].
        destruct C as (fn & i & args & F & I & Ei & Ki & _). cbn [isCallUser]. apply existsb_exists. exists i. split.
        * apply allInsts_in. exists fn. auto.
        * rewrite Ei, Nat.eqb_refl, Ki. reflexivity. }
  destruct (A (aLocal a) emptyConfig Lo) as (c1 & E1 & Q1). rewrite E1.
  destruct (B (aGlobal a) c1 Gl) as (c2 & E2 & Q2). exists c2. split; [exact E2|].
  intros k v N. rewrite (Q2 k v N), (Q1 k v N). assert (~ has emptyConfig k v) by (destruct k; cbn; auto). tauto.
Qed.
Print Assumptions C62_annotations_partial.
Example annotations_ex : exists c, fromAnnotations prog (mkA [(Cast (VInst 10), "psr.sink"); (Cast (VInst 14), "psr.Source")] [(Some "src", "psr.source")]
    (fun v => if eqb v (VInst 14) then [VOther 0; VArg "main" 1] else [])) = Some c /\
  has c CSource (VInst 12) /\ has c CSink (VInst 10) /\ has c CSource (VArg "main" 1) /\ ~ has c CSource (VInst 14).
Proof.
  exists (mkC [VInst 12; VArg "main" 1] [VInst 10] []). split; [vm_compute; reflexivity|]. cbn. intuition discriminate.
Qed.

(** A variable whose address needs no cast (char), or an annotated global
    variable: an assertion fails, or a null pointer is used. *)
Theorem C62_annotated_char_refuted : exists m a v, aLocal a = [(Plain v, "psr.source")] /\ fromAnnotations m a = None.
Proof. exists prog, (mkA [(Plain (VInst 10), "psr.source")] [] (fun _ => [])), (VInst 10). split; reflexivity. Qed.
Print Assumptions C62_annotated_char_refuted.
Theorem C62_annotated_global_refuted : exists m a, aLocal a = [] /\ aGlobal a = [(None, "other.tool")] /\ fromAnnotations m a = None.
Proof. exists prog, (mkA [] [(None, "other.tool")] (fun _ => [])). repeat split. Qed.
Print Assumptions C62_annotated_global_refuted.

(** A local variable to which a parameter is assigned somewhere: the parameter is
    marked, the variable is not. *)
Theorem C62_annotated_assigned_refuted : exists m a c v w, aLocal a = [(Cast v, "psr.source")] /\
  aStored a v = [VOther 0; VArg "main" w] /\ fromAnnotations m a = Some c /\ ~ has c CSource v /\ has c CSource (VArg "main" w).
Proof.
  exists prog, (mkA [(Cast (VInst 10), "psr.source")] [] (fun _ => [VOther 0; VArg "main" 0])), (mkC [VArg "main" 0] [] []), (VInst 10), 0.
  split; [reflexivity|]. split; [reflexivity|]. split; [reflexivity|]. split; [cbn; intuition discriminate|left; reflexivity].
Qed.
Print Assumptions C62_annotated_assigned_refuted.

(** Annotations of other tools are taken for categories. *)
Theorem C62_annotation_prefix_refuted : exists m a c v s, aLocal a = [(Cast v, s)] /\ prefix "psr." s = false /\
  fromAnnotations m a = Some c /\ has c CSink v.
Proof.
  exists prog, (mkA [(Cast (VInst 10), "my__sink")] [] (fun _ => [])), (mkC [] [VInst 10] []), (VInst 10), "my__sink".
  repeat split. left. reflexivity.
Qed.
Print Assumptions C62_annotation_prefix_refuted.
