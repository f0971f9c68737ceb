(** Concrete instances showing that the hypotheses of the IDE theorems are
    satisfiable, and witnesses for the refuted properties: copy-constant
    propagation over a small recursive program. *)
From Coq Require Import List Bool Lia Permutation.
From Verif Require Import Assoc TableModel JumpFunctionsModel IDESolverModel IDESpec
  IDEPhase1 IDEPrecision IDESchedule IDETermination IDEResults.
Import ListNotations.

(** ** value lattice and edge functions of copy-constant propagation *)
Inductive cval := cTop | cVal (k : nat) | cBot.
Definition cval_eqb (x y : cval) : bool :=
  match x, y with
  | cTop, cTop | cBot, cBot => true
  | cVal a, cVal b => PeanoNat.Nat.eqb a b
  | _, _ => false
  end.
Definition cjoin (x y : cval) : cval :=
  match x, y with
  | cTop, _ => y
  | _, cTop => x
  | cVal a, cVal b => if PeanoNat.Nat.eqb a b then cVal a else cBot
  | _, _ => cBot
  end.

(** [eJoin k] maps x to x joined with k *)
Inductive cef := eTop | eBot | eId | eConst (k : nat) | eJoin (k : nat).
Definition cef_apply (f : cef) (x : cval) : cval :=
  match f with
  | eTop => cTop | eBot => cBot | eId => x | eConst k => cVal k | eJoin k => cjoin x (cVal k)
  end.
Definition cef_eqb (f g : cef) : bool :=
  match f, g with
  | eTop, eTop | eBot, eBot | eId, eId => true
  | eConst a, eConst b | eJoin a, eJoin b => PeanoNat.Nat.eqb a b
  | _, _ => false
  end.
Definition cef_const (x : cval) : cef :=
  match x with cTop => eTop | cVal k => eConst k | cBot => eBot end.
Definition cef_compose (f g : cef) : cef :=
  match f with
  | eId => g
  | eTop => match g with eId => eTop | _ => g end
  | eBot => match g with eTop | eBot | eConst _ => g | _ => eBot end
  | eConst k => cef_const (cef_apply g (cVal k))
  | eJoin k => match g with
               | eId => eJoin k
               | eJoin k' => if PeanoNat.Nat.eqb k k' then eJoin k else eBot
               | _ => g
               end
  end.
Definition cef_join (f g : cef) : cef :=
  match f, g with
  | eTop, _ => g
  | _, eTop => f
  | eBot, _ | _, eBot => eBot
  | eId, eId => eId
  | eId, eConst k | eConst k, eId | eId, eJoin k | eJoin k, eId => eJoin k
  | eConst a, eConst b => if PeanoNat.Nat.eqb a b then eConst a else eBot
  | eConst a, eJoin b | eJoin a, eConst b | eJoin a, eJoin b =>
      if PeanoNat.Nat.eqb a b then eJoin a else eBot
  end.
Definition cef_rank (f : cef) : nat :=
  match f with eTop => 3 | eId | eConst _ => 2 | eJoin _ => 1 | eBot => 0 end.
Definition cval_rank (x : cval) : nat := match x with cTop => 2 | cVal _ => 1 | cBot => 0 end.

Section CC.
  Context {N F D : Type}.
  Variables (nFF : N -> N -> D -> list D) (cFF : N -> F -> D -> list D)
    (rFF : N -> F -> N -> N -> D -> list D) (ctFF : N -> N -> D -> list D)
    (nEF : N -> D -> N -> D -> cef) (cEF : N -> D -> F -> D -> cef)
    (rEF : N -> F -> N -> D -> N -> D -> cef) (ctEF : N -> D -> N -> D -> cef) (zero : D).

  Definition ccProblem : problem N F D cval cef :=
    mkProblem nFF cFF rFF ctFF (fun _ _ => None) nEF cEF rEF ctEF (fun _ _ _ _ => eId)
      zero cef_apply cef_compose cef_join cef_eqb eTop eId cTop cBot cjoin cval_eqb.

  Ltac neq_case :=
    repeat match goal with
    | |- context [PeanoNat.Nat.eqb ?a ?b] =>
        destruct (PeanoNat.Nat.eqb_spec a b); subst; simpl in *; try congruence
    | Hx : context [PeanoNat.Nat.eqb ?a ?b] |- _ =>
        destruct (PeanoNat.Nat.eqb_spec a b); subst; simpl in *; try congruence
    end.
  Ltac ccase := unfold lle in *; simpl in *;
    repeat match goal with x : cval |- _ => destruct x | f : cef |- _ => destruct f end; simpl in *;
    try reflexivity; try discriminate; neq_case; auto.

  Lemma cc_lattice : lattice_laws ccProblem.
  Proof. split; intros; ccase; split; intros; try congruence; try discriminate; auto. Qed.
  Lemma cc_sound : ef_sound ccProblem.
  Proof. split; intros; ccase. Qed.
  Hypothesis cEFnt : forall c d callee d', cef_eqb (cEF c d callee d') eTop = false.
  Lemma cc_precise : ef_precise ccProblem.
  Proof. split; [intros; ccase..|exact cEFnt]. Qed.
  Lemma cc_exact : ef_exact ccProblem.
  Proof.
    split; [intros; ccase..|exact cEFnt|].
    intros f Hf. pose proof (Hf cBot) as H1. destruct f; simpl in *; auto; discriminate.
  Qed.
  Lemma cc_height : finite_height ccProblem cef_rank cval_rank.
  Proof. split; intros; ccase; simpl in *; try lia; exfalso; auto. Qed.
End CC.

(** ** program

    main:  x = 1; w = 5; foo(); y = x;
    foo:   if (?) { x = 1; w = 6; foo(); }                          *)
Inductive pn := M0 | M1 | M2 | M3 | F0 | F1 | F2 | F3 | F4.
Inductive pf := Main | Foo.
Inductive pd := Z | X | Y | Wv.
Definition pn_dec (x y : pn) : {x = y} + {x <> y}. Proof. decide equality. Defined.
Definition pf_dec (x y : pf) : {x = y} + {x <> y}. Proof. decide equality. Defined.
Definition pd_dec (x y : pd) : {x = y} + {x <> y}. Proof. decide equality. Defined.
#[global] Instance pn_EqDec : EqDec pn := pn_dec.
#[global] Instance pf_EqDec : EqDec pf := pf_dec.
#[global] Instance pd_EqDec : EqDec pd := pd_dec.

Definition exG : icfg pn pf :=
  mkICFG
    (fun n => match n with M0 => [M1] | M2 => [M3] | F0 => [F1] | F1 => [F2; F4] | F3 => [F4] | M1 => [M2] | F2 => [F3] | _ => [] end)
    (fun n => match n with M1 | F2 => true | _ => false end)
    (fun n => match n with M3 | F4 => true | _ => false end)
    (fun n => match n with M0 | F0 => true | _ => false end)
    (fun f => match f with Main => [M0] | Foo => [F0] end)
    (fun n => match n with M1 | F2 => [Foo] | _ => [] end)
    (fun n => match n with M1 => [M2] | F2 => [F3] | _ => [] end)
    (fun f => match f with Main => [] | Foo => [M1; F2] end)
    (fun n => match n with M0 | M1 | M2 | M3 => Main | _ => Foo end)
    (fun f => match f with Main => [M1] | Foo => [F2] end)
    [M2; M3; F1; F3; F4].

Definition exP : problem pn pf pd cval cef :=
  ccProblem
    (fun n n' d => match n, n', d with
                   | M0, _, Z => [Z; X; Wv] | M0, _, _ => []
                   | F1, F2, Z => [Z; X; Wv] | F1, F2, _ => []
                   | M2, _, X => [X; Y]
                   | _, _, _ => [d] end)
    (fun _ _ d => match d with Y => [] | _ => [d] end)
    (fun _ _ _ _ d => [d])
    (fun _ _ d => match d with Y => [Y] | _ => [] end)
    (fun n d n' d' => match n, n', d, d' with
                      | M0, _, Z, X => eConst 1 | M0, _, Z, Wv => eConst 5
                      | F1, F2, Z, X => eConst 1 | F1, F2, Z, Wv => eConst 6
                      | _, _, _, _ => eId end)
    (fun _ _ _ _ => eId) (fun _ _ _ _ _ _ => eId) (fun _ _ _ _ => eId) Z.

Lemma exG_wf : icfg_wf exG.
Proof.
  split.
  - intros [] n'; simpl; intuition (subst; auto).
  - intros [] n'; simpl; intuition (subst; auto).
  - intros [] n'; simpl; intuition (subst; auto).
  - intros []; simpl; intuition (try discriminate).
  - intros [] n'; simpl; intuition (subst; auto).
  - intros [] n'; simpl; intuition (subst; auto).
  - intros []; simpl; intuition (try discriminate).
  - intros [] n'; simpl; intuition (subst; auto).
  - intros []; simpl; intuition (try discriminate).
Qed.
Lemma exG_one : single_start exG.
Proof. intros [] a b; simpl; intuition congruence. Qed.
Lemma exP_decl : summaries_for_declarations exG exP.
Proof. intros c callee sf; simpl; discriminate. Qed.
Lemma exP_lattice : lattice_laws exP. Proof. apply cc_lattice. Qed.
Lemma exP_sound : ef_sound exP. Proof. apply cc_sound. Qed.
Lemma exP_precise : ef_precise exP. Proof. apply cc_precise. auto. Qed.
Lemma exP_exact : ef_exact exP. Proof. apply cc_exact. auto. Qed.
Lemma exP_nt : nontop_preserving exG exP.
Proof.
  intros c stk n d v Hs Hv. inversion Hs; subst; unfold nontop in *; simpl in *; auto; try discriminate.
  destruct n0, n, d0, d; simpl in *; auto; try discriminate; congruence.
Qed.

Definition exSeeds : @seeds pn pd cval := [(M0, [])].
Lemma exSeeds_starts : seeds_at_starts exG exSeeds.
Proof. intros n facts [E|[]]. injection E; intros; subst; auto. Qed.
Lemma exSeeds_nt n facts d v : In (n, facts) exSeeds -> In (d, v) facts -> nontop exP v.
Proof. intros [E|[]] Hf. injection E; intros; subst. destruct Hf. Qed.

Definition allN := [M0; M1; M2; M3; F0; F1; F2; F3; F4].
Definition allD := [Z; X; Y; Wv].
Lemma allN_all n : In n allN. Proof. destruct n; simpl; auto 12. Qed.
Lemma allD_all d : In d allD. Proof. destruct d; simpl; auto 12. Qed.
Lemma exP_closed : facts_closed exP exSeeds allD.
Proof. split; intros; apply allD_all. Qed.

(** phase I of the LIFO run needs fewer than 200 steps *)
Definition exRun := solve exG exP false 200 exSeeds.
Definition exT := match exRun with Some (_, T) => T | None => [] end.
Definition exSt := match exRun with Some (st, _) => st | None => initState exP exSeeds end.
Lemma exRun_ok : solve exG exP false 200 exSeeds = Some (exSt, exT).
Proof. vm_compute. reflexivity. Qed.
Lemma ex_solved : solved exG exP false exSeeds exSt exT.
Proof. exact (solve_solved exG exP false 200 exSeeds exSt exT exRun_ok). Qed.

Lemma ex_values :
  t_lookup exT M3 X = Some (cVal 1) /\ t_lookup exT M3 Y = Some (cVal 1) /\
  t_lookup exT M3 Wv = Some cBot /\ t_lookup exT F1 Wv = Some cBot /\ t_lookup exT M2 Y = None.
Proof. vm_compute. auto. Qed.

(** a run through the recursive call that reaches main's exit *)
Lemma ex_reach : reach exG exP (nontop exP) (addZeroSeeds exP exSeeds) ([], M3, Y, cVal 1).
Proof.
  assert (NT : forall k, nontop exP (cVal k)) by (intros k; discriminate).
  assert (NB : nontop exP cBot) by discriminate.
  assert (R0 : reach exG exP (nontop exP) (addZeroSeeds exP exSeeds) ([], M0, Z, cBot)).
  { eapply reach_seed with (facts := [(Z, cBot)]); simpl; auto. }
  assert (R1 := reach_step exG exP (nontop exP) _ _ _ _ _ _ R0
    (es_normal exG exP [] M0 Z cBot M1 X eq_refl ltac:(simpl; auto) ltac:(simpl; auto)) (NT 1)).
  assert (R2 := reach_step exG exP (nontop exP) _ _ _ _ _ _ R1
    (es_call exG exP [] M1 X (cVal 1) Foo F0 X eq_refl ltac:(simpl; auto) eq_refl ltac:(simpl; auto) ltac:(simpl; auto)) (NT 1)).
  assert (R3 := reach_step exG exP (nontop exP) _ _ _ _ _ _ R2
    (es_normal exG exP _ F0 X (cVal 1) F1 X eq_refl ltac:(simpl; auto) ltac:(simpl; auto)) (NT 1)).
  assert (R4 := reach_step exG exP (nontop exP) _ _ _ _ _ _ R3
    (es_normal exG exP _ F1 X (cVal 1) F4 X eq_refl ltac:(simpl; auto) ltac:(simpl; auto)) (NT 1)).
  assert (R5 := reach_step exG exP (nontop exP) _ _ _ _ _ _ R4
    (es_ret exG exP _ M1 Foo F4 X (cVal 1) M2 X eq_refl eq_refl ltac:(simpl; auto) ltac:(simpl; auto)) (NT 1)).
  exact (reach_step exG exP (nontop exP) _ _ _ _ _ _ R5
    (es_normal exG exP _ M2 X (cVal 1) M3 Y eq_refl ltac:(simpl; auto) ltac:(simpl; auto)) (NT 1)).
Qed.

(** ** C09: a seed in the middle of foo (fact x = 7 before the branch) *)
Definition midSeeds : @seeds pn pd cval := [(F1, [(X, cVal 7)])].
Lemma mid_lost : exists st T,
  solved exG exP false midSeeds st T /\
  reach exG exP (nontop exP) (addZeroSeeds exP midSeeds) ([], F4, X, cVal 7) /\
  t_lookup T F4 X = Some (cVal 1).
Proof.
  destruct (solve exG exP false 200 midSeeds) as [[st T]|] eqn:E; [|vm_compute in E; discriminate].
  exists st, T. split; [eapply (solve_solved exG exP false); eauto|]. split.
  - eapply reach_step with (c := ([], F1, X, cVal 7)).
    + eapply reach_seed with (facts := [(X, cVal 7); (Z, cBot)]); simpl; auto. discriminate.
    + exact (es_normal exG exP [] F1 X (cVal 7) F4 X eq_refl ltac:(simpl; auto) ltac:(simpl; auto)).
    + discriminate.
  - vm_compute in E. injection E; intros <- _. vm_compute. reflexivity.
Qed.

(** ** C10: seeds in two functions, unbalanced returns followed.

    main calls g, other calls g; seeds at main and g, none at other. *)
Inductive qn := A0 | A1 | A2 | B0 | B1 | B2 | G0 | G1.
Inductive qf := FA | FB | FG.
Definition qn_dec (x y : qn) : {x = y} + {x <> y}. Proof. decide equality. Defined.
Definition qf_dec (x y : qf) : {x = y} + {x <> y}. Proof. decide equality. Defined.
#[global] Instance qn_EqDec : EqDec qn := qn_dec.
#[global] Instance qf_EqDec : EqDec qf := qf_dec.
Definition quG : icfg qn qf :=
  mkICFG
    (fun n => match n with A0 => [A1] | A1 => [A2] | B0 => [B1] | B1 => [B2] | G0 => [G1] | _ => [] end)
    (fun n => match n with A1 | B1 => true | _ => false end)
    (fun n => match n with A2 | B2 | G1 => true | _ => false end)
    (fun n => match n with A0 | B0 | G0 => true | _ => false end)
    (fun f => match f with FA => [A0] | FB => [B0] | FG => [G0] end)
    (fun n => match n with A1 | B1 => [FG] | _ => [] end)
    (fun n => match n with A1 => [A2] | B1 => [B2] | _ => [] end)
    (fun f => match f with FG => [A1; B1] | _ => [] end)
    (fun n => match n with A0 | A1 | A2 => FA | B0 | B1 | B2 => FB | _ => FG end)
    (fun f => match f with FA => [A1] | FB => [B1] | FG => [] end)
    [A2; B2; G1].
Definition quP : problem qn qf pd cval cef :=
  ccProblem (fun n _ d => match n, d with G0, Z => [Z; X] | _, _ => [d] end)
    (fun _ _ d => [d]) (fun _ _ _ _ d => [d]) (fun _ _ _ => [])
    (fun n d _ d' => match n, d, d' with G0, Z, X => eConst 3 | _, _, _ => eId end)
    (fun _ _ _ _ => eId) (fun _ _ _ _ _ _ => eId) (fun _ _ _ _ => eId) Z.
Lemma quG_wf : icfg_wf quG.
Proof.
  split.
  - intros [] n'; simpl; intuition (subst; auto).
  - intros [] n'; simpl; intuition (subst; auto).
  - intros [] n'; simpl; intuition (subst; auto).
  - intros []; simpl; intuition (try discriminate).
  - intros [] n'; simpl; intuition (subst; auto).
  - intros [] n'; simpl; intuition (subst; auto).
  - intros []; simpl; intuition (try discriminate).
  - intros [] n'; simpl; intuition (subst; auto).
  - intros []; simpl; intuition (try discriminate).
Qed.
Definition quSeeds : @seeds qn pd cval := [(A0, []); (G0, [])].
Definition quInit (b : bool) : state :=
  mkState jf_empty [] [] (if b then [(Z, A0, Z, eId); (Z, G0, Z, eId)] else [(Z, G0, Z, eId); (Z, A0, Z, eId)]) [].
Lemma quInit_ok b : pinit quP quSeeds (quInit b).
Proof. destruct b; repeat split; simpl; [apply Permutation_refl|apply perm_swap]. Qed.

Lemma unbalanced_schedules : exists st1 T1 st2 T2,
  solved quG quP true quSeeds st1 T1 /\ solved quG quP true quSeeds st2 T2 /\
  t_lookup T1 B2 X = Some (cVal 3) /\ t_lookup T2 B2 X = None.
Proof.
  destruct (runPhaseI quG quP true 100 (quInit false)) as [st1|] eqn:E1; [|vm_compute in E1; discriminate].
  destruct (runPhaseI quG quP true 100 (quInit true)) as [st2|] eqn:E2; [|vm_compute in E2; discriminate].
  destruct (runPhaseIIi quG quP 100 (addZeroSeeds quP quSeeds) (st_unb st1) (st_jf st1)
    (submitInitialValues quG quP (addZeroSeeds quP quSeeds) (st_unb st1) (st_jf st1) (mkV [] []))) as [v1|] eqn:V1.
  2:{ vm_compute in E1. injection E1; intros <-. vm_compute in V1. discriminate. }
  destruct (runPhaseIIi quG quP 100 (addZeroSeeds quP quSeeds) (st_unb st2) (st_jf st2)
    (submitInitialValues quG quP (addZeroSeeds quP quSeeds) (st_unb st2) (st_jf st2) (mkV [] []))) as [v2|] eqn:V2.
  2:{ vm_compute in E2. injection E2; intros <-. vm_compute in V2. discriminate. }
  exists st1, (valueComputationTask quG quP (st_jf st1) (v_tab v1)),
         st2, (valueComputationTask quG quP (st_jf st2) (v_tab v2)).
  split; [eapply run_solved; eauto using quInit_ok|].
  split; [eapply run_solved; eauto using quInit_ok|].
  split.
  - vm_compute in E1. injection E1; intros <-. vm_compute in V1. injection V1; intros <-. vm_compute. reflexivity.
  - vm_compute in E2. injection E2; intros <-. vm_compute in V2. injection V2; intros <-. vm_compute. reflexivity.
Qed.
