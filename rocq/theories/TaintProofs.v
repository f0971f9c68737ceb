(** The flow functions of IFDSTaintAnalysis follow executions of simple programs. *)
From Coq Require Import List Bool ZArith Arith Lia.
From Verif Require Import Assoc TableModel IDESolverModel IDESpec IFDSModel IFDSSpec IFDSProofs
  IRProgramModel IRProgramSpec IRProgramProofs IRProgramSim LLVMFlowFunctionsModel UninitSpec UninitProofs TaintModel TaintSpec.
Import ListNotations.

Section Uses.
  Context {N F : Type} {EN : EqDec N} {EF : EqDec F}.
  Local Notation value := (value N F).
  Variable p : prog N F.
  Hypothesis NO : forall n, In n (nodes p).

  Lemma count_pos (v : value) l : In v l -> 1 <= length (filter (eqb v) l).
  Proof.
    intros H. assert (X : In v (filter (eqb v) l)) by (apply filter_In; split; auto; apply eqb_refl).
    destruct (filter (eqb v) l); [destruct X|cbn; lia].
  Qed.
  Lemma single_user (v : value) n u : manyUses p v = false -> In v (operands p n) -> In v (operands p u) -> u = n.
  Proof.
    unfold manyUses. intros H Hn Hu. apply Nat.leb_gt in H. destruct (EN u n) as [e|ne]; auto. exfalso.
    pose proof (NO n) as In1. pose proof (NO u) as In2. revert H In1 In2. clear NO.
    induction (nodes p) as [|x l IH]; cbn [flat_map]; [intros _ []|].
    rewrite filter_app, app_length. intros H H1 H2.
    assert (A : forall y, In y l -> In v (operands p y) -> 1 <= length (filter (eqb v) (flat_map (operands p) l))).
    { intros y Hy Ho. apply count_pos. apply in_flat_map. eauto. }
    destruct H1 as [->|H1].
    - pose proof (count_pos v _ Hn). destruct H2 as [->|H2]; [congruence|]. pose proof (A u H2 Hu). lia.
    - destruct H2 as [->|H2].
      + pose proof (count_pos v _ Hu). pose proof (A n H1 Hn). lia.
      + apply IH; auto. lia.
  Qed.
End Uses.

Section P.
  Context {N F : Type} {EN : EqDec N} {EF : EqDec F}.
  Local Notation value := (value N F).
  Variable p : prog N F.
  Variable P : policy N F.
  Variable t : taintEnv N F.
  Variable main : F.
  Variable tm : bool.
  Hypothesis WF : prog_wf p.
  Hypothesis SI : taintSimple p P.
  Hypothesis CF : configured p P t.
  Local Notation W := (taintFlows p t).
  Local Notation pm := (fun i => tm && negb (isPtr p (VArg main i))).

  Lemma mem_In (d : value) l : mem_ d l = true <-> In d l.
  Proof.
    unfold mem_. rewrite existsb_exists. split.
    - intros (x & H & E). apply eqb_eq in E. now subst.
    - intros H. exists d. split; auto. apply eqb_refl.
  Qed.
  Lemma isNil_In (d : value) l : In d l -> isNil l = false.
  Proof. destruct l; [intros []|reflexivity]. Qed.
  Lemma populate_In facts ctx d : In d facts -> In d (populate p t facts ctx).
  Proof. intros H. unfold populate. apply in_or_app. now left. Qed.
  Lemma is_true (x y : value) : eqb x y = true <-> x = y.
  Proof. split; [apply eqb_eq|intros ->; apply eqb_refl]. Qed.
  Lemma reg_zero (d : value) : isReg d = true -> isZero d = false.
  Proof. destruct d; cbn; congruence. Qed.
  Lemma reg_const (d : value) : isReg d = true -> isConst d = false.
  Proof. destruct d; cbn; congruence. Qed.

  (** what is true of d behind an instruction that does not define it *)
  Definition stays (n : N) (d : value) (l : list value) : Prop := In d l \/ (In d (operands p n) /\ manyUses p d = false).
  Lemma transfer_stays n to from d : d <> to -> stays n d (transfer to from d).
  Proof.
    intros H. left. unfold transfer. destruct (eqb d from); cbn; auto. destruct (eqb d to) eqn:E; cbn; auto. apply eqb_eq in E. contradiction.
  Qed.
  Lemma transferKill_stays n to from d : In from (operands p n) -> d <> to -> stays n d (transferKill p to from d).
  Proof.
    intros Ho H. unfold transferKill. destruct (manyUses p from) eqn:U; [now apply transfer_stays|].
    destruct (eqb d from) eqn:E1; [apply eqb_eq in E1; subst; now right|].
    left. destruct (eqb d to) eqn:E; cbn; auto. apply eqb_eq in E. contradiction.
  Qed.
  Lemma transferKill2_stays n to f1 f2 d : In f1 (operands p n) -> In f2 (operands p n) -> d <> to -> stays n d (transferKill2 p to f1 f2 d).
  Proof.
    intros H1 H2 H. unfold transferKill2, stays.
    assert (X : eqb d to = false) by (apply Assoc.eqb_false; auto). rewrite X.
    destruct (eqb d f1) eqn:E1; [apply eqb_eq in E1; subst f1|]; (destruct (eqb d f2) eqn:E2; [apply eqb_eq in E2; subst f2|]);
      repeat match goal with |- context [if ?b then _ else _] => destruct b eqn:? end; cbn in *; auto; try congruence; discriminate.
  Qed.
  Lemma normal_stays n d : ~ killed p n d -> stays n d (taintNormal p t n d).
  Proof.
    unfold taintNormal, killed. destruct (code p n) eqn:Hc; intros H; try (left; now left);
      try (apply transferKill_stays; [unfold operands; rewrite Hc; now left|exact H]);
      try (now apply transfer_stays);
      try (apply transferKill2_stays; [unfold operands; rewrite Hc; cbn; auto..|exact H]).
    destruct (eqb q d) eqn:E1; [apply eqb_eq in E1; congruence|].
    destruct (eqb v d) eqn:E2; [|left; now left]. apply eqb_eq in E2. subst v.
    destruct (manyUses p d) eqn:U; [left; apply in_or_app; right; now left|].
    right. split; auto. unfold operands. rewrite Hc. now left.
  Qed.
  Lemma transferKill_gen to from : In to (transferKill p to from from).
  Proof. unfold transferKill, transfer. rewrite eqb_refl. destruct (manyUses p from); cbn; auto. Qed.
  Lemma normal_from n d : In d (flowsFrom p false n) -> isReg d = true -> In (VInst n) (taintNormal p t n d).
  Proof.
    unfold flowsFrom, taintNormal. pose proof (ts_code _ _ SI n) as S.
    destruct (code p n) as [b|v q|q|v|q idx|vs|agg|agg v|ops|b fs args|v]; intros H Hr; try (destruct H; fail).
    - destruct H as [->|[]]. apply transferKill_gen.
    - destruct H as [->|[]]. unfold transfer. rewrite eqb_refl. cbn; auto.
    - destruct H as [->|[]]. apply transferKill_gen.
    - specialize (S d H). destruct d; try discriminate; destruct S.
    - destruct H as [->|[]]. apply transferKill_gen.
    - unfold transferKill2. destruct H as [->|[->|[]]]; rewrite ?eqb_refl, ?orb_true_r; cbn;
        repeat match goal with |- context [if ?b then _ else _] => destruct b end; cbn; auto.
  Qed.

  Lemma body_gen c f : In f (calleesAt p c) -> (entry p f <> None \/ exists i o, In o (lib P f i)) ->
    gen p t c f = [] /\ leak p t c f = [] /\ kill p t c f = [].
  Proof.
    intros Hf Hb. destruct (cf_plain _ _ _ CF c f Hf Hb) as (A1 & A2 & A3 & A4 & A5).
    assert (S : forall sel, (forall i, sel (VArg f i) = false) -> selected p sel c f = []).
    { intros sel Hs. unfold selected, params. generalize (argsAt p c). induction (seq 0 (nparams p f)) as [|i l IH]; intros [|a args]; cbn; auto.
      rewrite Hs. apply IH. }
    assert (G : gen p t c f = []).
    { unfold gen. rewrite A1, A3, S; [reflexivity|]. intros i. apply A5. }
    unfold leak, kill. rewrite A2, A4, !S; auto; intros i; apply A5.
  Qed.
  Lemma body_calls c f : In f (calleesAt p c) -> entry p f <> None -> sourceCall p t c f || sinkCall p t c f = false.
  Proof.
    intros Hf Hb. destruct (cf_plain _ _ _ CF c f Hf (or_introl Hb)) as (A1 & A2 & A3 & A4 & A5).
    assert (S : forall sel, (forall i, sel (VArg f i) = false) -> existsb sel (params p f) = false).
    { intros sel Hs. unfold params. induction (seq 0 (nparams p f)) as [|i l IH]; cbn; auto. now rewrite Hs. }
    assert (E : forall l : list value, existsb (fun a : value => mem_ a []) l = false) by (induction l; auto).
    unfold sourceCall, sinkCall. rewrite A1, A2, !S, !E; auto; intros i; apply A5.
  Qed.

  Lemma sum_gen c f d : swiftAppend t f = false -> In d (gen p t c f) -> exists sf, taintSum p t c f = Some sf /\ In d (sf VZero).
  Proof.
    intros Hs Hd. unfold taintSum. rewrite Hs, (isNil_In _ _ Hd). cbn [andb]. eexists; split; [reflexivity|]. cbn. auto.
  Qed.
  Lemma selected_In sel c f i a : sel (VArg f i) = true -> nth_error (argsAt p c) i = Some a -> i < nparams p f -> In a (selected p sel c f).
  Proof.
    intros Hs Ha Hi. unfold selected. apply in_flat_map. exists (VArg f i, a). split; [eapply in_pairs; eauto using nth_params|].
    cbn. rewrite Hs. now left.
  Qed.
  Lemma libc_gen c f g i a o d : libc t f = Some g -> swiftAppend t f = false -> gen p t c f = [] -> leak p t c f = [] -> kill p t c f = [] ->
    nth_error (argsAt p c) i = Some a -> i < nparams p f -> In o (g i) ->
    (match o with Some j => nth_error (argsAt p c) j = Some d | None => d = VInst c end) ->
    exists sf, taintSum p t c f = Some sf /\ In d (sf a).
  Proof.
    intros Hl Hs H1 H2 H3 Ha Hi Ho Hd. unfold taintSum. rewrite Hs, H1, H2, H3. cbn. rewrite Hl. eexists; split; [reflexivity|].
    unfold libcFlow. apply in_or_app. left. apply in_flat_map. exists (a, i). split.
    - eapply in_pairs; eauto. rewrite (nth_error_nth' _ 0); [|now rewrite seq_length]. now rewrite seq_nth.
    - cbn [fst snd]. rewrite eqb_refl. apply in_flat_map. exists o. split; auto. destruct o; [rewrite Hd; now left|subst; now left].
  Qed.

  Lemma args_eval E (args : list value) cs i c : Forall2 (fun v y => eval false E v = Some y) args cs -> nth_error cs i = Some c ->
    exists a, nth_error args i = Some a /\ eval false E a = Some c.
  Proof.
    intros H. revert i. induction H as [|v y args cs Hv _ IH]; intros [|i]; cbn; try discriminate; auto.
    intros [= <-]. eauto.
  Qed.

  Lemma ret_facts c f e d : In f (calleesAt p c) -> entry p f <> None -> fnOf p e = f ->
    taintRet p t c f e d = populate p t (
      (if isZero d then [d] else if isConst d then [d] else []) ++
      flat_map (fun pa : value * value => if eqb (fst pa) d && pointer p (fst pa) then [snd pa] else []) (List.combine (params p f) (argsAt p c)) ++
      (if existsb (fun v => eqb v d && pointer p v) (valists p f) then map (fun v => v) (skipn (length (params p f)) (argsAt p c)) else []) ++
      match retVal p e with Some r => if eqb r d then [VInst c] else [] | None => [] end) c.
  Proof.
    intros Hf Hb He. destruct (ts_params _ _ SI c f Hf Hb) as [Hn _].
    unfold taintRet, toCaller, arityOk. rewrite He. cbn [calleeOf cDecl cParams cSret cVarArg cVaLists].
    assert (Lp : length (params p f) = length (argsAt p c)) by (unfold params; now rewrite map_length, seq_length).
    rewrite Lp, Nat.leb_refl, Nat.eqb_refl. reflexivity.
  Qed.

  Lemma taint_flowsOk : flowsOk p false false false (extTaint p P) main pm W (taintSeeds p main tm).
  Proof.
    split.
    - reflexivity.
    - intros sp Hs. unfold taintSeeds. rewrite Hs. split.
      + eapply v_seed; [now left|now left].
      + intros i Hi Hp. apply andb_true_iff in Hp as [-> _]. eapply v_seed; [now left|]. right.
        eapply nth_error_In. now apply nth_params.
    - intros n n' _. apply zeroed_zero.
    - intros n n' d _ Hr Hk. destruct (normal_stays n d Hk) as [H|[H1 H2]]; [left; now apply zeroed_In|].
      right. split.
      + destruct (isFormal p d) eqn:Hf; auto. destruct d; try discriminate. cbn in Hf.
        rewrite (ts_used _ _ SI _ _ n Hf H1) in H2. discriminate.
      + intros u Hu. eapply single_user; eauto. apply (pw_nodes p WF).
    - intros n n' d Hd Hr. apply zeroed_In. now apply normal_from.
    - discriminate.
    - discriminate.
    - intros n. pose proof (ts_code _ _ SI n) as S. destruct (code p n); auto.
    - intros n n' v q Hn Hr Hv Hq. apply zeroed_In. unfold taintNormal. rewrite Hn.
      destruct (eqb q v) eqn:E; [apply eqb_eq in E; congruence|]. rewrite eqb_refl.
      apply in_or_app. left. apply populate_In. now left.
    - discriminate.
    - intros c f i a Hf Hb Hi. split; [|auto]. destruct (ts_args _ _ SI c f i a Hf Hi) as [S|[S _]]; [exact S|contradiction].
    - intros c f i j a Hf Hb Ha Hi Hj. eapply (ts_noalias _ _ SI); eauto.
    - intros c f Hf Hb. cbn. unfold taintSum. destruct (body_gen c f Hf (or_introl Hb)) as (-> & -> & ->).
      rewrite (cf_swift _ _ _ CF c f Hf), (cf_body _ _ _ CF c f Hf Hb). reflexivity.
    - intros c f _ _. apply zeroed_zero.
    - intros c f i a Hf Hb Hi Hr Hl. apply zeroed_In. unfold taintCall. rewrite body_calls by auto.
      destruct (ts_params _ _ SI c f Hf Hb) as [Hn Hsr].
      unfold toCallee, arityOk. cbn [calleeOf cDecl cParams cSret cVarArg].
      unfold decl. destruct (entry p f) eqn:Ef; [|congruence].
      assert (Lp : length (params p f) = length (argsAt p c)) by (unfold params; now rewrite map_length, seq_length).
      rewrite Lp, Nat.leb_refl, Nat.eqb_refl. cbn [andb orb negb].
      rewrite (reg_zero a Hr), (reg_const a Hr), Hsr. cbn [andb orb negb app].
      replace (match params p f with [] => 0 | _ :: _ => 0 end) with 0 by (destruct (params p f); auto). cbn [skipn orNone].
      apply in_or_app. left. apply in_flat_map. exists (VArg f i, a). split; [eapply in_pairs; eauto using nth_params|].
      cbn [fst snd]. rewrite eqb_refl. now left.
    - intros c r _. apply zeroed_zero.
    - intros c r d Hc Hr Hd. apply zeroed_In. unfold taintCtr, alongside. rewrite (reg_zero d Hr), (reg_const d Hr).
      destruct (find (fun a => eqb a d) (argsAt p c)) as [a|] eqn:Fi; [|now left].
      apply find_some in Fi as [Fi1 Fi2]. apply eqb_eq in Fi2. subst a.
      destruct (existsb (decl p) (calleesAt p c)) eqn:De; [now left|].
      cbn [orb]. destruct (pointer p d) eqn:Pd; cbn [negb]; [|now left]. exfalso.
      destruct (ts_pointers _ _ SI c d Fi1) as [V|(f & Hf & Hb)].
      + destruct d; try discriminate; exact Pd.
      + now apply Hd.
      + assert (X : existsb (decl p) (calleesAt p c) = true); [|congruence].
        apply existsb_exists. exists f. unfold decl. now rewrite Hb.
    - intros c f e r v Hf Hb He Hv Hr. apply zeroed_In. rewrite ret_facts with (f := f) by auto.
      apply populate_In. rewrite Hv, eqb_refl. apply in_or_app. right. apply in_or_app. right. apply in_or_app. right. now left.
    - reflexivity.
    - intros c f e r i a Hf Hb He Hi Ha Hl. apply zeroed_In. rewrite ret_facts with (f := f) by auto. apply populate_In.
      apply in_or_app. right. apply in_or_app. left.
      apply in_flat_map. exists (VArg f i, a). split; [eapply in_pairs; eauto using nth_params|].
      cbn [fst snd]. rewrite eqb_refl. destruct (ts_args _ _ SI c f i a Hf Hi) as [S|[S _]]; [|contradiction].
      unfold pointer. rewrite <- S, var_cell, Ha. now left.
    - intros c f Hf Hb. symmetry. now apply (ts_params _ _ SI).
    - intros c b fs args f r E cs M x M' Hc Hf Hb Hcs [Hx HM] Hun Hgl.
      assert (Hfc : In f (calleesAt p c)) by (unfold calleesAt; now rewrite Hc).
      assert (Ha : argsAt p c = args) by (unfold argsAt; now rewrite Hc).
      assert (Bring : forall i, brings p f cs M i -> forall o, In o (lib P f i) ->
        exists a, nth_error args i = Some a /\ source p E M args a).
      { intros i (y & Hy & Hm) o Ho. destruct (args_eval _ _ _ _ _ Hcs Hy) as (a & Hia & Hea). exists a. split; auto.
        right. destruct Hm as [Hm|(Hp & l & Hl & Hm)].
        - left. split; [eapply nth_error_In; eauto|]. destruct (eval_marked false E a y Hea Hm) as [[Hr Hv]|[_ Hu]]; [|discriminate].
          split; [|eauto]. destruct (isCell p a) eqn:Ca; auto. rewrite (Hun a y Ca Hv) in Hm. discriminate.
        - destruct y as [pl m]. cbn in Hl. subst pl.
          assert (Ca : isCell p a = true).
          { rewrite <- Ha in Hia. destruct (ts_args _ _ SI c f i a Hfc Hia) as [S|(_ & _ & _ & [[g ->]|S])].
            - rewrite <- var_cell. congruence.
            - cbn in Hea. inversion Hea; subst. now rewrite Hgl in Hm.
            - rewrite S in Ho. destruct Ho. }
          right. split; [eapply nth_error_In; eauto|]. split; auto. rewrite eval_reg in Hea by now apply (cell_reg p). eauto. }
      assert (Lib : forall i o d, brings p f cs M i -> In o (lib P f i) ->
        (match o with Some j => nth_error args j = Some d | None => d = VInst c end) ->
        exists d', source p E M args d' /\ out W c f r d' d).
      { intros i o d Hbr Ho Hd. destruct (Bring i Hbr o Ho) as (a & Hia & Hs). exists a. split; auto. right.
        destruct (cf_lib _ _ _ CF f i o Ho) as (g & Hg & Hog).
        destruct (body_gen c f Hfc) as (G1 & G2 & G3); [eauto|].
        rewrite <- Ha in *.
        eapply libc_gen; eauto; [eapply (cf_swift _ _ _ CF); eauto|eapply (ts_policy _ _ SI c f i); right; intros X; now rewrite X in Ho]. }
      split.
      + intros Hm. destruct (Hx Hm) as [S|(i & Hi & Ho)]; [|exact (Lib i None _ Hi Ho eq_refl)].
        exists VZero. split; [now left|]. right. apply sum_gen; [eapply (cf_swift _ _ _ CF); eauto|].
        apply populate_In. destruct (cf_srcCall _ _ _ CF c S) as [X|X]; apply in_or_app; [right; rewrite X; now left|now left].
      + intros l Hl. destruct (HM l Hl) as [Hm|(j & m & Hj & Hp & Hs)].
        * assert (Dec : (exists a m, In a args /\ isCell p a = true /\ E a = Some (PPtr l, m)) \/
                        forall a m, In a args -> isCell p a = true -> E a <> Some (PPtr l, m)).
          { clear. induction args as [|a args [(a' & m & H1 & H2 & H3)|IH]]; [right; intros a m []|left; exists a', m; cbn; auto|].
            destruct (isCell p a) eqn:Ca; [|right; intros a' m [<-|H] H'; [congruence|eauto]].
            destruct (E a) as [[[z|l'] m]|] eqn:Ea.
            - right. intros a' m' [<-|H] H'; [congruence|eauto].
            - destruct (eq_dec l' l) as [->|Hne]; [left; exists a, m; cbn; auto|].
              right. intros a' m' [<-|H] H'; [congruence|eauto].
            - right. intros a' m' [<-|H] H'; [congruence|eauto]. }
          destruct Dec as [(a & m & H1 & H2 & H3)|H]; [left|right; auto].
          exists a. split; auto. split; auto. split; [eauto|]. exists a. split; [right; right; eauto 6|].
          left. apply zeroed_In. unfold taintCtr, alongside. pose proof (cell_reg p _ H2) as Hr.
          rewrite (reg_zero a Hr), (reg_const a Hr).
          destruct (find (fun x => eqb x a) (argsAt p c)) as [a'|] eqn:Fi; [|now left].
          apply find_some in Fi as [_ Fi]. apply eqb_eq in Fi. subst a'.
          replace (existsb (decl p) (calleesAt p c)) with true; [now left|].
          symmetry. apply existsb_exists. exists f. unfold decl. now rewrite Hb.
        * destruct (args_eval _ _ _ _ _ Hcs Hj) as (a & Hja & Hea). rewrite <- Ha in Hja.
          left. exists a. rewrite Ha in Hja. split; [eapply nth_error_In; eauto|].
          assert (Ca : isCell p a = true).
          { rewrite <- Ha in Hja. destruct (ts_args _ _ SI c f j a Hfc Hja) as [S|(_ & S1 & S2 & _)]; [rewrite <- var_cell; congruence|].
            exfalso. destruct Hs as [Hs|(i & _ & Hs)]; [congruence|now apply (S2 i)]. }
          split; auto. rewrite eval_reg in Hea by now apply (cell_reg p). split; [eauto|].
          destruct Hs as [Hs|(i & Hi & Ho)]; [|exact (Lib i (Some j) _ Hi Ho Hja)].
          exists VZero. split; [now left|]. right. apply sum_gen; [eapply (cf_swift _ _ _ CF); eauto|].
          apply populate_In. rewrite <- Ha in Hja.
          destruct (cf_srcParam _ _ _ CF c f j a Hs Hja) as [X|X]; apply in_or_app; [right|now left]. apply in_or_app. right.
          eapply selected_In; eauto. eapply (ts_policy _ _ SI c f j); auto.
  Qed.

  Lemma taint_starts n ds : In (n, ds) (taintSeeds p main tm) -> isStart p n = true.
  Proof.
    unfold taintSeeds. destruct (entry p main) as [sp|] eqn:E; [|intros []]. intros [[= <- _]|[]].
    apply ir_isStart. now rewrite (pw_entry p WF _ _ E).
  Qed.

  Lemma taint_reported st T f n E K M k v :
    solved (irICFG p) (taintProblem p t) false (bottomSeeds (taintSeeds p main tm)) st T ->
    taintRuns p false (extTaint p P) main tm (n, E, K, M, k) -> succs p n <> [] -> leaksAt p P f n E M v ->
    In v (leaks p t T n).
  Proof.
    intros Hs He Hsucc (Hf & i & Hi & Hlt & Hsink & Hv).
    assert (Ho : In v (operands p n)).
    { apply nth_error_In in Hi. unfold argsAt, operands in *. destruct (code p n); auto; destruct Hi. }
    assert (X : isReg v = true /\ ((exists c, E v = Some c /\ marked c = true) \/
       (isCell p v = true /\ exists l m, E v = Some (PPtr l, m) /\ marked (M l) = true))).
    { destruct Hv as [(pl & Hv)|(Hv & l & m & Hl & Hm)].
      - destruct (eval_marked false E v _ Hv eq_refl) as [[R1 R2]|[_ Hu]]; [|discriminate]. split; eauto.
      - rewrite var_cell in Hv. pose proof (cell_reg p _ Hv) as Hr. rewrite eval_reg in Hl by auto. split; eauto 8. }
    destruct X as [Hr X].
    assert (V : valid (irICFG p) W (taintSeeds p main tm) (stkOf K) n v).
    { eapply (marked_valid p false false false (extTaint p P) main pm W); eauto using taint_flowsOk.
      intros j Hj. apply andb_true_iff in Hj as [_ Hj]. now apply negb_true_iff in Hj. }
    unfold leaks. destruct (succs p n) as [|s0 ss] eqn:Hss; [congruence|].
    apply in_flat_map. exists f. split; auto. apply filter_In. split.
    - eapply ir_covers; eauto using taint_starts.
    - unfold recordedLeak. rewrite (cf_swift _ _ _ CF n f Hf), (reg_zero v Hr), orb_true_r. cbn. rewrite andb_true_r.
      apply mem_In. unfold leak. destruct (cf_sink _ _ _ CF n f i v Hsink Hi) as [Y|Y]; apply in_or_app; [right|now left].
      eapply selected_In; eauto.
  Qed.
End P.

(** *** termination *)
Section T.
  Context {N F : Type} {EN : EqDec N} {EF : EqDec F}.
  Local Notation value := (value N F).
  Variable p : prog N F.
  Variable t : taintEnv N F.
  Variable main : F.
  Variable tm : bool.
  Variable U : list value.

  (** U contains the values of the program, and the parameters of the analysis do not
      invent others *)
  Record closedValues : Prop := {
    cv_zero : In VZero U;
    cv_inst : forall n, In (VInst n) U;
    cv_op : forall n d, In d (operands p n) -> In d U;
    cv_par : forall f d, In d (params p f) \/ In d (valists p f) -> In d U;
    cv_alias : forall d d', In d U -> In d' (aliases t d) -> In d' U;
    cv_strip : forall d, In d U -> In (strip t d) U;
    cv_src : forall n d, In d (sourceCB t n) -> In d U
  }.
  Hypothesis CV : closedValues.

  Lemma args_U n d : In d (argsAt p n) -> In d U.
  Proof. intros H. apply (cv_op CV n). unfold argsAt, operands in *. destruct (code p n); auto; destruct H. Qed.
  Lemma populate_U facts n d : (forall x, In x facts -> In x U) -> In d (populate p t facts n) -> In d U.
  Proof.
    intros H Hd. unfold populate in Hd. apply in_app_iff in Hd as [Hd|Hd]; auto.
    apply in_flat_map in Hd as (x & Hx & Hd). apply in_flat_map in Hd as (a & Ha & Hd).
    pose proof (cv_alias CV x a (H x Hx) Ha) as Au.
    destruct (canSkip p a n || ctConst t a); [destruct Hd|].
    destruct a as [| |k|m|f i|g]; try (destruct Hd as [<-|[]]; auto; fail).
    destruct (code p m) eqn:Hm; try (destruct Hd as [<-|[]]; auto; fail).
    destruct Hd as [<-|[<-|[]]]; auto. apply (cv_strip CV). apply (cv_op CV m). unfold operands. rewrite Hm. now left.
  Qed.
  Lemma selected_U sel c f d : In d (selected p sel c f) -> In d U.
  Proof.
    unfold selected. intros H. apply in_flat_map in H as ([a b] & H1 & H2). cbn [fst snd] in H2. destruct (sel a); [|destruct H2].
    destruct H2 as [<-|[]]. apply in_combine_r in H1. now apply args_U in H1.
  Qed.
  Lemma gen_U c f d : In d (gen p t c f) -> In d U.
  Proof.
    apply populate_U. intros x Hx. apply in_app_iff in Hx as [Hx|Hx]; [now apply (cv_src CV c)|].
    apply in_app_iff in Hx as [Hx|Hx]; [|now apply selected_U in Hx].
    destruct (isSource t (VInst c)); [|destruct Hx]. destruct Hx as [<-|[]]. apply (cv_inst CV).
  Qed.
  Lemma orNone_inv (x : option (list value)) d : In d (orNone x) -> exists l, x = Some l /\ In d l.
  Proof. destruct x; cbn; [eauto|intros []]. Qed.

  Lemma taint_facts : facts_closed (taintProblem p t) (bottomSeeds (taintSeeds p main tm)) U.
  Proof.
    split; cbn [zeroValue normalFF callFF retFF ctrFF sumFF taintProblem ifdsProblem taintFlows irFlows f_normal f_call f_ret f_ctr f_sum f_zero].
    - apply (cv_zero CV).
    - intros n facts d v H H'. unfold taintSeeds, bottomSeeds in H. destruct (entry p main); [|destruct H]. destruct H as [[= _ <-]|[]].
      destruct H' as [[= <- _]|H']; [apply (cv_zero CV)|]. apply in_map_iff in H' as (x & [= <- _] & H'). destruct tm; [|destruct H'].
      apply (cv_par CV main). auto.
    - intros n n' d d' Hd H. apply zeroed_inv in H as [->|H]; [apply (cv_zero CV)|].
      pose proof (cv_inst CV n) as FI. pose proof (cv_op CV n) as FO.
      unfold taintNormal, transferKill2, transferKill, transfer in H. unfold operands in FO. destruct (code p n); cbn [In] in *;
        try (destruct (eqb q d); [destruct H|]; destruct (eqb v d);
          [apply in_app_iff in H as [H|H]; [eapply populate_U; [|exact H]; intros x [<-|[]]; auto|]|]);
        repeat match type of H with context [if ?c then _ else _] => destruct c; cbn [In] in H end; cbn [In] in H; intuition (subst; auto).
    - intros n f d d' Hd H. apply zeroed_inv in H as [->|H]; [apply (cv_zero CV)|]. unfold taintCall in H.
      destruct (sourceCall p t n f || sinkCall p t n f); [destruct H|]. apply orNone_inv in H as (l & Hl & H).
      unfold toCallee in Hl. destruct (cDecl (calleeOf p f)); [inversion Hl; subst; destruct H|].
      destruct (negb (arityOk (argsAt p n) (calleeOf p f))); [discriminate|]. inversion Hl; subst. clear Hl.
      apply in_app_iff in H as [H|H]; [destruct (_ || _); [destruct H as [<-|[]]; auto|destruct H]|].
      apply in_app_iff in H as [H|H].
      + apply in_flat_map in H as ([a b] & H1 & H2). cbn [fst snd] in H2. destruct (eqb b _); [|destruct H2]. destruct H2 as [<-|[]].
        apply in_combine_l in H1. apply (cv_par CV f). left. cbn in H1.
        revert H1. generalize (match params p f with [] => 0 | _ :: _ => if sret p f then 1 else 0 end). intros k Hk.
        rewrite <- (firstn_skipn k (params p f)). apply in_or_app. now right.
      + destruct (existsb _ _); [|destruct H]. rewrite map_id in H. apply (cv_par CV f). now right.
    - intros c f e r d d' Hd H. apply zeroed_inv in H as [->|H]; [apply (cv_zero CV)|]. unfold taintRet in H.
      apply orNone_inv in H as (l & Hl & H). unfold toCaller in Hl.
      destruct (negb (arityOk _ _)); [discriminate|]. inversion Hl; subst. clear Hl.
      eapply populate_U; [|exact H]. clear H d'. intros d' H.
      apply in_app_iff in H as [H|H]; [cbn [andb] in H; destruct (isZero d); [|destruct (isConst d)]; cbn in H; intuition (subst; auto)|].
      apply in_app_iff in H as [H|H].
      + apply in_flat_map in H as ([a b] & H1 & H2). cbn [fst snd] in H2. destruct (eqb a d && pointer p a); [|destruct H2].
        destruct H2 as [<-|[]]. apply in_combine_r in H1. now apply args_U in H1.
      + apply in_app_iff in H as [H|H].
        * destruct (existsb _ _); [|destruct H]. rewrite map_id in H. apply (args_U c).
          rewrite <- (firstn_skipn (length (cParams (calleeOf p (fnOf p e)))) (argsAt p c)). apply in_or_app. now right.
        * destruct (retVal p e) as [v|]; [|destruct H]. destruct (eqb v d); [|destruct H]. destruct H as [<-|[]]. apply (cv_inst CV).
    - intros c r d d' Hd H. apply zeroed_inv in H as [->|H]; [apply (cv_zero CV)|]. unfold taintCtr, alongside in H.
      destruct (isZero d); [destruct H as [<-|[]]; auto|]. destruct (isConst d); [destruct H as [<-|[]]; auto|].
      destruct (find _ _) as [a|] eqn:Fi; [|destruct H as [<-|[]]; auto]. apply find_some in Fi as [Fi _].
      destruct (_ || _); [|destruct H]. destruct H as [<-|[]]. now apply args_U in Fi.
    - intros c f sf d d' Hs Hd H. unfold taintSum in Hs. destruct (swiftAppend t f).
      { injection Hs as <-; cbn beta in H. match type of H with context [if ?b then _ else _] => destruct b end; cbn in H; intuition (subst; auto). apply (cv_inst CV). }
      destruct (isNil (gen p t c f) && isNil (leak p t c f) && isNil (kill p t c f)).
      { destruct (libc t f) as [g|]; [|discriminate]. injection Hs as <-; cbn beta in H. unfold libcFlow in H. apply in_app_iff in H as [H|[<-|[]]]; auto.
        apply in_flat_map in H as ([a b] & H1 & H2). cbn [fst snd] in H2. destruct (eqb d a); [|destruct H2].
        apply in_flat_map in H2 as (o & _ & H2). destruct o as [j|]; [|destruct H2 as [<-|[]]; apply (cv_inst CV)].
        destruct (nth_error (argsAt p c) j) eqn:Hj; [|destruct H2]. destruct H2 as [<-|[]]. apply nth_error_In in Hj. now apply args_U in Hj. }
      destruct (isNil (gen p t c f)).
      { injection Hs as <-; cbn beta in H. destruct (mem_ d (kill p t c f)); [destruct H|]. destruct H as [<-|[]]; auto. }
      injection Hs as <-; cbn beta in H. cbn beta in H. destruct (isZero d); [|destruct H as [<-|[]]; auto]. destruct H as [<-|H]; [apply (cv_zero CV)|now apply gen_U in H].
  Qed.
End T.
