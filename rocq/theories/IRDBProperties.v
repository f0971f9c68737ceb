(** C60: ids of instructions and global variables are their positions. *)
From Coq Require Import String Ascii List Bool Arith ZArith Lia.
From Verif Require Import Assoc UtilitiesModel UtilitiesSpec UtilitiesProofs UtilitiesProperties IRDBModel IRDBSpec IRDBProofs.
Import ListNotations.
Open Scope nat_scope.

(** Both tables are the position in the program, whatever functions are added. *)
Theorem C60_ids_are_positions : forall pre m before added d, history pre m before added d ->
  let vs := everything m added in NoDup vs ->
  assertion d = true /\
  (forall v k, getInstructionId d v = Some k <-> nth_error vs k = Some v) /\
  (forall k, getValueFromId d k = nth_error vs k) /\
  getAllInstructions d = map Inst (flat_map fnInsts (modFuns m ++ added)) /\
  getNumInstructions d = length (flat_map fnInsts (modFuns m ++ added)).
Proof.
  intros pre m before added d H vs N. destruct (history_ok pre m before added d H N) as [[I1 [I2 I3]] [O _]].
  split; [unfold assertion; rewrite I1, I3; apply Nat.eqb_refl|]. split; [exact I2|]. split; [intros k; unfold getValueFromId; now rewrite I1|].
  assert (E : getAllInstructions d = map Inst (flat_map fnInsts (modFuns m ++ added))).
  { unfold getAllInstructions. rewrite I1, O. unfold everything. rewrite <- (map_length Global (modGlobals m)), skipn_app, skipn_all, Nat.sub_diag. cbn.
    now rewrite flat_map_app, map_app. }
  split; [exact E|]. unfold getNumInstructions. rewrite <- (map_length Inst), <- E. unfold getAllInstructions. symmetry. apply skipn_length.
Qed.
Print Assumptions C60_ids_are_positions.

(** The comparison of unsigned differences is right for every id: instructions by
    their ids, null for those of globals and for all others; no bad cast. *)
Theorem C60_get_instruction : forall pre m before added d, history pre m before added d ->
  let vs := everything m added in NoDup vs -> (Z.of_nat (length vs) < 2 ^ 64)%Z -> forall id, (0 <= id < 2 ^ 64)%Z ->
  getInstruction d id = match nth_error vs (Z.to_nat id) with Some (Inst i) => Got i | _ => Null end.
Proof.
  intros pre m before added d H vs N L id Hid. destruct (history_ok pre m before added d H N) as [[I1 _] [O _]]. fold vs in I1.
  unfold getInstruction. rewrite I1, O. set (g := length (modGlobals m)).
  assert (Ev : vs = map Global (modGlobals m) ++ map Inst (flat_map fnInsts (modFuns m ++ added))) by (unfold vs, everything; now rewrite flat_map_app, map_app).
  assert (Lg : g <= length vs) by (rewrite Ev, app_length, map_length; unfold g; lia).
  assert (Em : ((Z.of_nat (length vs) - Z.of_nat g) mod 2 ^ 64 = Z.of_nat (length vs) - Z.of_nat g)%Z) by (apply Z.mod_small; lia). rewrite Em.
  destruct (Z.lt_ge_cases id (Z.of_nat g)) as [Lt|Ge].
  - assert (E : ((id - Z.of_nat g) mod 2 ^ 64 = id - Z.of_nat g + 2 ^ 64)%Z) by (symmetry; apply Z.mod_unique_pos with (-1)%Z; lia). rewrite E.
    destruct (Z.ltb_spec (id - Z.of_nat g + 2 ^ 64) (Z.of_nat (length vs) - Z.of_nat g)); [lia|].
    rewrite Ev, nth_error_app1 by (rewrite map_length; fold g; lia). rewrite nth_error_map. destruct (nth_error (modGlobals m) (Z.to_nat id)); reflexivity.
  - assert (E : ((id - Z.of_nat g) mod 2 ^ 64 = id - Z.of_nat g)%Z) by (apply Z.mod_small; lia). rewrite E.
    destruct (Z.ltb_spec (id - Z.of_nat g) (Z.of_nat (length vs) - Z.of_nat g)) as [Lt|Ge'].
    + assert (Hn : Z.to_nat id < length vs) by lia. destruct (nth_error vs (Z.to_nat id)) as [v|] eqn:En; [|apply nth_error_None in En; lia].
      rewrite Ev, nth_error_app2 in En by (rewrite map_length; fold g; lia). rewrite nth_error_map in En. destruct (nth_error _ _); [|discriminate]. injection En as <-. reflexivity.
    + assert (En : nth_error vs (Z.to_nat id) = None) by (apply nth_error_None; lia). now rewrite En.
Qed.
Print Assumptions C60_get_instruction.

(** Metadata ids of a preprocessed module are all different. *)
Theorem C60_metadata_ids_are_unique : forall m before added d now, history true m before added d ->
  let vs := everything m added in NoDup vs -> forall v w, within now vs v -> within now vs w ->
  getMetaDataID (meta d) v = getMetaDataID (meta d) w -> v = w.
Proof.
  intros m before added d now H vs N. destruct (history_ok true m before added d H N) as [_ [_ M]]. specialize (M eq_refl).
  assert (G : forall v, In v vs -> exists k, nth_error vs k = Some v /\ getMetaDataID (meta d) v = toString k).
  { intros v Hv. destruct (In_nth_error _ _ Hv) as [k Hk]. exists k. split; auto. specialize (M k v Hk). unfold getMetaDataID.
    unfold vs, everything in Hv. rewrite !in_app_iff, !in_map_iff in Hv. destruct Hv as [[? [<- _]]|[[? [<- _]]|[? [<- _]]]]; now rewrite M. }
  assert (Nd : forall k, ~ hasDot (toString k)) by (intros k; apply hasDot_split; destruct (toString_nonempty k) as [? [? [_ [_ E]]]]; exact E).
  assert (D : forall f n, hasDot (append f (append "." (toString n)))) by (intros f n; apply dot_app; right; now left).
  intros v w Hv Hw E. destruct Hv as [v Hv|f n Hf Hn], Hw as [w Hw|f' n' Hf' Hn'].
  - destruct (G v Hv) as [k [Hk Ek]], (G w Hw) as [j [Hj Ej]]. rewrite Ek, Ej in E. apply toString_inj in E. subst j. congruence.
  - destruct (G v Hv) as [k [Hk Ek]]. rewrite Ek in E. destruct (Nd k). rewrite E. apply D.
  - destruct (G w Hw) as [k [Hk Ek]]. rewrite Ek in E. destruct (Nd k). rewrite <- E. apply D.
  - cbn [getMetaDataID] in E. apply last_dot in E; auto. destruct E as [-> E]. apply toString_inj in E. now subst.
Qed.
Print Assumptions C60_metadata_ids_are_unique.

(** They order values as the program does. *)
Theorem C60_order_is_program_order : forall m before added d, history true m before added d ->
  let vs := everything m added in NoDup vs -> (Z.of_nat (length vs) <= 2 ^ 63)%Z -> forall j k v w, nth_error vs j = Some v -> nth_error vs k = Some w ->
  (valueIDLess (meta d) v w = true <-> j < k).
Proof.
  intros m before added d H vs N L j k v w Hj Hk. destruct (history_ok true m before added d H N) as [_ [_ M]]. specialize (M eq_refl).
  assert (G : forall k v, nth_error vs k = Some v -> getMetaDataID (meta d) v = toString k).
  { intros i u Hi. pose proof (M i u Hi) as Mi. apply nth_error_In in Hi. unfold vs, everything in Hi. rewrite !in_app_iff, !in_map_iff in Hi. unfold getMetaDataID. destruct Hi as [[? [<- _]]|[[? [<- _]]|[? [<- _]]]]; now rewrite Mi. }
  unfold valueIDLess. rewrite (G _ _ Hj), (G _ _ Hk). assert (Lj : j < length vs) by (apply nth_error_Some; congruence). assert (Lk : k < length vs) by (apply nth_error_Some; congruence).
  destruct (toString_numeral j) as [ds [-> [C1 V1]]], (toString_numeral k) as [es [-> [C2 V2]]].
  rewrite (proj1 (C41_string_id_separates_partial ds es C1 C2 ltac:(unfold longMax; lia) ltac:(unfold longMax; lia))). lia.
Qed.
Print Assumptions C60_order_is_program_order.

(** fromMetaDataId is the inverse, for functions with plain names. *)
Theorem C60_round_trip_partial : forall m before added d now, history true m before added d ->
  let vs := everything m added in NoDup vs -> NoDup (map fnName (modFuns now)) ->
  (Z.of_nat (length vs) <= 2 ^ 32)%Z -> (forall f, In f (modFuns now) -> (Z.of_nat (fnArgs f) <= 2 ^ 32)%Z) ->
  forall v, within now vs v -> (forall f n, v = Arg f n -> plainName f) ->
  fromMetaDataId now d (getMetaDataID (meta d) v) = Some v.
Proof.
  intros m before added d now H vs N Nn L La v Hv Pl. destruct (history_ok true m before added d H N) as [[I1 _] [_ M]]. specialize (M eq_refl). fold vs in I1.
  destruct Hv as [v Hv|f n Hf Hn].
  - destruct (In_nth_error _ _ Hv) as [k Hk]. assert (Lk : k < length vs) by (apply nth_error_Some; congruence).
    assert (E : getMetaDataID (meta d) v = toString k).
    { specialize (M k v Hk). unfold vs, everything in Hv. rewrite !in_app_iff, !in_map_iff in Hv. unfold getMetaDataID. destruct Hv as [[? [<- _]]|[[? [<- _]]|[? [<- _]]]]; now rewrite M. }
    rewrite E. unfold fromMetaDataId. destruct (toString_nonempty k) as [c [s [Es [Nc Sp]]]]. rewrite Sp, toString_parse by lia. rewrite Es. destruct (Ascii.eqb_spec c "-"%char); [congruence|].
    rewrite Nat2Z.id. unfold getValueFromId. now rewrite I1.
  - destruct (Pl _ _ eq_refl) as [P1 P2]. cbn [getMetaDataID]. unfold fromMetaDataId. rewrite split_plain by exact P1.
    assert (Ln : (Z.of_nat n < 2 ^ 32)%Z) by (specialize (La f Hf); lia). rewrite toString_parse by exact Ln.
    assert (G : getFunction now (fnName f) = Some f).
    { unfold getFunction. clear - Nn Hf. induction (modFuns now) as [|g fs IH]; [destruct Hf|]. cbn in Nn |- *. inversion Nn as [|? ? N1 N2]; subst. destruct Hf as [->|Hf]; [now rewrite String.eqb_refl|].
      destruct (String.eqb_spec (fnName g) (fnName f)) as [E|Ne]; [|now apply IH]. destruct N1. rewrite E. now apply in_map. }
    rewrite G. unfold getNthFunctionArgument. destruct (Z.leb_spec (Z.of_nat (fnArgs f)) (Z.of_nat n)); [lia|]. rewrite Nat2Z.id.
    destruct (fnName f) as [|c s]; cbn; [reflexivity|]. destruct (Ascii.eqb_spec c "-"%char); [congruence|reflexivity].
Qed.
Print Assumptions C60_round_trip_partial.

(** Whatever the string is, the result is a value of the module. *)
Theorem C60_from_metadata_is_within : forall pre m before added d now s v, history pre m before added d ->
  let vs := everything m added in NoDup vs -> fromMetaDataId now d s = Some v -> within now vs v.
Proof.
  intros pre m before added d now s v H vs N E. destruct (history_ok pre m before added d H N) as [[I1 _] _]. unfold fromMetaDataId in E.
  destruct s as [|c s]; [discriminate|]. destruct (Ascii.eqb c "-"%char); [discriminate|]. destruct (splitDot _) as [[f r]|].
  - destruct (parseInt r) as [n|] eqn:Ep; [|discriminate]. destruct (getFunction now f) as [g|] eqn:Eg; [|discriminate].
    unfold getNthFunctionArgument in E. destruct (Z.leb_spec (Z.of_nat (fnArgs g)) n); [discriminate|]. injection E as <-. apply within_arg; [|].
    + unfold getFunction in Eg. apply find_some in Eg. tauto.
    + assert (0 <= n)%Z; [|lia]. unfold parseInt in Ep. destruct (startsDigit r); [|discriminate]. destruct (digitsVal r 0 <? 2 ^ 32)%Z; [|discriminate]. injection Ep as <-.
      assert (K : forall s a, (0 <= a)%Z -> (0 <= digitsVal s a)%Z); [|apply K; lia].
      clear. induction s as [|c s IH]; intros a Ha; cbn [digitsVal]; [exact Ha|]. unfold digitOf. destruct (N.leb_spec 48 (N_of_ascii c)); cbn [andb]; [|exact Ha]. destruct (N_of_ascii c <=? 57)%N; [|exact Ha]. apply IH. lia.
  - destruct (parseInt _) as [n|]; [|discriminate]. unfold getValueFromId in E. rewrite I1 in E. apply nth_error_In in E. now constructor.
Qed.
Print Assumptions C60_from_metadata_is_within.

(** ** A concrete module *)
Definition exampleModule : irmodule := mkMod [1; 2] [mkFn "main" 2 [10; 11; 12]; mkFn "puts" 1 []; mkFn "f.1" 1 [13]; mkFn "f" 2 [14]].
Definition exampleAdded : function := mkFn "__psrModel" 0 [20; 21].
Example C60_example : let d := insertFunction true exampleAdded (construct true exampleModule []) in
  history true exampleModule [] [exampleAdded] d /\ NoDup (everything exampleModule [exampleAdded]) /\
  getInstructionId d (Inst 12) = Some 4 /\ getInstruction d 4 = Got 12 /\ getInstruction d 1 = Null /\ getInstruction d 1000 = Null /\ getInstructionId d (Inst 21) = Some 8 /\
  getMetaDataID (meta d) (Arg "main" 1) = "main.1"%string /\ fromMetaDataId exampleModule d "main.1" = Some (Arg "main" 1) /\
  fromMetaDataId exampleModule d "4" = Some (Inst 12) /\ valueIDLess (meta d) (Inst 12) (Inst 21) = true /\ plainName "main".
Proof.
  split; [reflexivity|]. split; [repeat constructor; cbn; intuition discriminate|]. repeat split; try reflexivity; try discriminate. cbn. intuition discriminate.
Qed.

(** ** Where it fails *)
(** the id of an argument is split at the first dot and the number may end early: for
    f.1 (e.g. a copy of f) it gives an argument of f *)
Theorem C60_round_trip_refuted : exists m d, history true m [] [] d /\ NoDup (everything m []) /\ NoDup (map fnName (modFuns m)) /\
  within m (everything m []) (Arg "f.1" 0) /\ fromMetaDataId m d (getMetaDataID (meta d) (Arg "f.1" 0)) = Some (Arg "f" 1).
Proof.
  exists exampleModule, (construct true exampleModule []). split; [reflexivity|]. split; [repeat constructor; cbn; intuition discriminate|].
  split; [repeat constructor; cbn; intuition discriminate|]. split; [|reflexivity].
  apply (within_arg exampleModule _ (mkFn "f.1" 1 [13])); cbn; auto.
Qed.
Print Assumptions C60_round_trip_refuted.
(** strings that are no ids have values *)
Theorem C60_only_ids_have_values_refuted : exists m d s v, history true m [] [] d /\ NoDup (everything m []) /\
  fromMetaDataId m d s = Some v /\ getMetaDataID (meta d) v <> s.
Proof. exists exampleModule, (construct true exampleModule []), "4x"%string, (Inst 12). split; [reflexivity|]. split; [repeat constructor; cbn; intuition discriminate|]. split; [reflexivity|discriminate]. Qed.
Print Assumptions C60_only_ids_have_values_refuted.
(** a function inserted twice (two models of the C runtime in a module, C59): the
    assertion fails; without it the metadata are other ids than those of the table *)
Theorem C60_inserted_twice_refuted : exists m f d i, NoDup (everything m [f]) /\
  d = insertFunction true f (insertFunction true f (construct true m [])) /\ assertion d = false /\
  In (Inst i) (instructions f) /\ getInstructionId d (Inst i) <> None /\
  (forall k, getInstructionId d (Inst i) = Some k -> getMetaDataID (meta d) (Inst i) <> toString k) /\
  getNumInstructions d > length (flat_map fnInsts (modFuns m ++ [f])).
Proof.
  exists exampleModule, exampleAdded, (insertFunction true exampleAdded (insertFunction true exampleAdded (construct true exampleModule []))), 20.
  split; [repeat constructor; cbn; intuition discriminate|]. split; [reflexivity|]. split; [reflexivity|]. split; [now left|]. split; [discriminate|].
  split; [intros k [= <-]; discriminate|]. cbv. lia.
Qed.
Print Assumptions C60_inserted_twice_refuted.
(** without preprocessing all ids are -1, or those of an earlier numbering *)
Theorem C60_unprocessed_ids_refuted : exists m before d v w, history false m before [] d /\ NoDup (everything m []) /\
  In v (everything m []) /\ In w (everything m []) /\ v <> w /\ getMetaDataID (meta d) v = getMetaDataID (meta d) w.
Proof.
  exists exampleModule, [], (construct false exampleModule []), (Inst 10), (Inst 14). split; [reflexivity|]. split; [repeat constructor; cbn; intuition discriminate|].
  split; [cbn; tauto|]. split; [cbn; tauto|]. split; [discriminate|reflexivity].
Qed.
Print Assumptions C60_unprocessed_ids_refuted.
Theorem C60_earlier_ids_refuted : exists m m' d i, meta (construct true m []) = meta d /\ history false m' (meta (construct true m [])) [] d /\ NoDup (everything m' []) /\
  In (Inst i) (everything m' []) /\ exists j, i <> j /\ fromMetaDataId m' d (getMetaDataID (meta d) (Inst i)) = Some (Inst j).
Proof.
  set (m := mkMod [] [mkFn "f" 0 [1; 2]]). set (m' := mkMod [] [mkFn "f" 0 [3; 1; 2]]).
  exists m, m', (construct false m' (meta (construct true m []))), 2. split; [reflexivity|]. split; [reflexivity|]. split; [repeat constructor; cbn; intuition discriminate|].
  split; [cbn; tauto|]. exists 1. split; [discriminate|reflexivity].
Qed.
Print Assumptions C60_earlier_ids_refuted.
