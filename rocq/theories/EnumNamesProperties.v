(** C71: enumerators and their names. *)
From Coq Require Import String List Bool Arith Lia.
From Verif Require Import EnumNamesModel EnumNamesSpec EnumNamesProofs.
Import ListNotations.
Local Open Scope string_scope.

(** A string is parsed as an enumerator exactly if it is its name or flag; all other strings
    give the extra value. *)
Theorem C71_parse : forall T d s, In (T, d) enums ->
  (forall i, fromString T s = Val i <-> denotes T i s) /\
  (fromString T s = Other <-> forall i, ~ denotes T i s).
Proof.
  intros T d s I. pose proof (proj1 (forallb_forall _ _) enums_check (T, d) I) as C. simpl in C.
  destruct (checks_spec T d C) as [A _]. split.
  - intros i. split; [apply from_sound|apply A].
  - split.
    + intros E i D. exact (from_complete T s i D E).
    + intros N. destruct (fromString T s) as [i|] eqn:E; [|reflexivity].
      destruct (N i (from_sound _ _ _ E)).
Qed.
Print Assumptions C71_parse.

(** Reading a printed enumerator gives it back, the extra value included. *)
Theorem C71_round_trip : forall T d, In (T, d) enums ->
  (forall i, (i < length T)%nat -> fromString T (toString T d (Val i)) = Val i) /\
  fromString T (toString T d Other) = Other.
Proof.
  intros T d I. pose proof (proj1 (forallb_forall _ _) enums_check (T, d) I) as C. simpl in C.
  destruct (checks_spec T d C) as [A B]. split; [|exact B].
  intros i L. apply A. simpl. destruct (nth_error T i) as [[n f]|] eqn:N.
  - exists n, f. auto.
  - apply nth_error_None in N. lia.
Qed.
Print Assumptions C71_round_trip.

(** Special member functions and severity levels are read back, too. *)
Theorem C71_round_trip_plain :
  (forall i, (i < 7)%nat -> toSpecial (specialToString (Val i)) = Val i) /\
  (forall i, (i < 6)%nat -> parseSeverity (severityToString (Val i)) = Val i) /\
  (forall s i, parseSeverity s = Val i -> severityToString (Val i) = s).
Proof.
  split; [|split].
  - intros i L. do 7 (destruct i as [|i]; [reflexivity|]). lia.
  - intros i L. do 6 (destruct i as [|i]; [reflexivity|]). lia.
  - intros s i H. apply switch_sound in H as (e & _ & N & S). rewrite Nat.sub_0_r in N.
    unfold severityToString, toString. rewrite N. exact S.
Qed.
Print Assumptions C71_round_trip_plain.

(** toAliasResult has no cases: every string is MayAlias, so three of the four results are not
    read back. *)
Theorem C71_alias_result_refuted :
  (forall s, toAliasResult s = Val 1) /\
  exists i, (i < length aliasResult)%nat /\ aliasToString (Val i) = "NoAlias" /\
    toAliasResult (aliasToString (Val i)) <> Val i.
Proof.
  split; [reflexivity|]. exists 0%nat. repeat split; [simpl; lia|discriminate].
Qed.
Print Assumptions C71_alias_result_refuted.

(** The invalid severity level is printed as DEBUG, and read back as that. *)
Theorem C71_severity_refuted : exists s, parseSeverity s = Other /\
  severityToString (parseSeverity s) = "DEBUG" /\ parseSeverity (severityToString (parseSeverity s)) = Val 0.
Proof. exists "debug". repeat split; reflexivity. Qed.
Print Assumptions C71_severity_refuted.

Example parse_examples :
  In (callGraph, "Invalid") enums /\ fromString callGraph "otf" = Val 5 /\ fromString callGraph "OTF" = Val 5 /\
  fromString callGraph "Otf" = Other /\ toString dataFlow "None" (Val 8) = "IDELinearConstantAnalysis" /\
  parseSeverity "ERROR" = Val 4.
Proof. repeat split; try reflexivity. right. left. reflexivity. Qed.
