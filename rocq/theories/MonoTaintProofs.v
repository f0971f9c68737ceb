(** The flow functions of the monotone taint analysis follow executions of simple
    programs. *)
From Coq Require Import List Bool ZArith Arith Lia.
From Verif Require Import Assoc IDESolverModel IDESpec IFDSModel IFDSSpec
  IRProgramModel IRProgramSpec IRProgramProofs IRProgramSim UninitSpec UninitProofs TaintModel TaintSpec TaintProofs MonoTaintModel MonoTaintSpec.
From Verif Require InterMonoModel InterMonoSpec.
Import ListNotations.

Section M.
  Context {N F : Type} {EN : EqDec N} {EF : EqDec F}.
  Local Notation value := (value N F).
  Variable p : prog N F.
  Variable t : taintEnv N F.

  Lemma mem_dec (d : value) l : mem_ d l = false <-> ~ In d l.
  Proof. rewrite <- mem_In. destruct (mem_ d l); intuition congruence. Qed.
  Lemma in_add (x y : value) m : In x (add y m) <-> x = y \/ In x m.
  Proof. unfold add. destruct (mem_ y m) eqn:E; [|cbn; intuition congruence]. apply mem_In in E. intuition (subst; auto). Qed.
  Lemma in_without (x : value) k m : In x (without k m) <-> In x m /\ ~ In x k.
  Proof. unfold without. rewrite filter_In, negb_true_iff, mem_dec. reflexivity. Qed.
  Lemma in_copy n q (m : list value) x : In x (copy n q m) <-> In x m \/ (In q m /\ x = VInst n).
  Proof.
    unfold copy. destruct (mem_ q m) eqn:E; [apply mem_In in E; rewrite in_add; tauto|]. apply mem_dec in E. tauto.
  Qed.
  Lemma in_store v q (m : list value) x : In x (if mem_ v m then add q m else without [q] m) <->
    (In v m /\ x = q) \/ (In x m /\ (x <> q \/ In v m)).
  Proof.
    destruct (mem_ v m) eqn:E; [apply mem_In in E; rewrite in_add; tauto|]. apply mem_dec in E. rewrite in_without. cbn.
    intuition congruence.
  Qed.
  Lemma in_callFlow c f (m : list value) x : In x (callFlow p c f m) <->
    exists i a, nth_error (argsAt p c) i = Some a /\ i < nparams p f /\ In a m /\ x = VArg f i.
  Proof.
    unfold callFlow. rewrite in_flat_map. split.
    - intros ([y a] & I & H). cbn [fst snd] in H. destruct (mem_ a m) eqn:E; [|destruct H]. destruct H as [<-|[]]. apply mem_In in E.
      apply In_nth_error in I. destruct I as (i & I).
      assert (X : forall (l l' : list value) i, nth_error (List.combine l l') i = Some (y, a) -> nth_error l i = Some y /\ nth_error l' i = Some a).
      { clear. induction l as [|u l IH]; intros [|w l'] [|i]; cbn; try discriminate; [intros [= -> ->]; auto|apply IH]. }
      apply X in I. destruct I as [I1 I2]. assert (L : i < nparams p f).
      { assert (i < length (params p f)) by (apply nth_error_Some; congruence). unfold params in H. now rewrite map_length, seq_length in H. }
      rewrite (nth_params p) in I1 by exact L. injection I1 as <-. eauto 6.
    - intros (i & a & Ha & L & Im & ->). exists (VArg f i, a). split; [eapply in_pairs; eauto using nth_params|].
      cbn [fst snd]. rewrite (proj2 (mem_In a m) Im). left. reflexivity.
  Qed.
  Lemma in_selected sel c f x : In x (selected p sel c f) <->
    exists i, nth_error (argsAt p c) i = Some x /\ i < nparams p f /\ sel (VArg f i) = true.
  Proof.
    unfold selected. rewrite in_flat_map. split.
    - intros ([y a] & I & H). cbn [fst snd] in H. destruct (sel y) eqn:E; [|destruct H]. destruct H as [<-|[]].
      apply In_nth_error in I. destruct I as (i & I).
      assert (X : forall (l l' : list value) i, nth_error (List.combine l l') i = Some (y, a) -> nth_error l i = Some y /\ nth_error l' i = Some a).
      { clear. induction l as [|u l IH]; intros [|w l'] [|i]; cbn; try discriminate; [intros [= -> ->]; auto|apply IH]. }
      apply X in I. destruct I as [I1 I2]. assert (L : i < nparams p f).
      { assert (i < length (params p f)) by (apply nth_error_Some; congruence). unfold params in H. now rewrite map_length, seq_length in H. }
      rewrite (nth_params p) in I1 by exact L. injection I1 as <-. eauto.
    - intros (i & Ha & L & S). exists (VArg f i, x). split; [eapply in_pairs; eauto using nth_params|].
      cbn [fst snd]. rewrite S. left. reflexivity.
  Qed.
  Lemma in_returnFlow c f e (m : list value) x : In x (returnFlow p c f e m) <->
    (exists v, retVal p e = Some v /\ In v m /\ x = VInst c) \/
    exists i, nth_error (argsAt p c) i = Some x /\ i < nparams p f /\ isPtr p (VArg f i) = true /\ In (VArg f i) m.
  Proof.
    unfold returnFlow. rewrite in_app_iff.
    assert (A : In x (match retVal p e with Some v => if mem_ v m then [VInst c] else [] | None => [] end) <->
      exists v, retVal p e = Some v /\ In v m /\ x = VInst c).
    { destruct (retVal p e) as [v|]; [|cbn; split; [intros []|intros (v & E & _); discriminate]].
      destruct (mem_ v m) eqn:E; [apply mem_In in E|apply mem_dec in E]; cbn.
      - split; [intros [<-|[]]; eauto|intros (w & _ & _ & ->); auto].
      - split; [intros []|intros (w & [= <-] & I & _); contradiction]. }
    rewrite A. pose proof (in_selected (fun y => pointer p y && mem_ y m) c f x) as B. unfold selected in B. rewrite B.
    apply or_iff_compat_l. split; intros (i & H1 & H2 & H3); exists i; (split; [exact H1|split; [exact H2|]]).
    - apply andb_true_iff in H3. rewrite mem_In in H3. exact H3.
    - apply andb_true_iff. rewrite mem_In. exact H3.
  Qed.
  Lemma in_allKill c fs x : In x (allKill p t c fs) <-> fs <> [] /\ forall f, In f fs -> In x (sanitized p t c f).
  Proof.
    destruct fs as [|f fs]; cbn [allKill]; [split; [intros []|tauto]|].
    assert (G : forall gs k, In x (fold_left (fun k g => filter (fun x => mem_ x (sanitized p t c g)) k) gs k) <->
      In x k /\ forall g, In g gs -> In x (sanitized p t c g)).
    { induction gs as [|g gs IH]; intros k; cbn [fold_left]; [split; [intros H; split; [exact H|intros ? []]|tauto]|].
      rewrite IH, filter_In, mem_In. cbn. split; [intros [[A B] H]; split; [exact A|intros h [<-|I]; auto]|intros [A H]; auto]. }
    rewrite G. cbn. split; [intros [A B]; split; [discriminate|intros g [<-|I]; auto]|intros [_ H]; auto].
  Qed.
  Lemma nil_dec (l : list value) : isNil l = true <-> l = [].
  Proof. destruct l; cbn; intuition congruence. Qed.
  Definition erased c fs (x : value) : Prop :=
    allGen p t c fs = [] /\ allKill p t c fs = [] /\ In x (argsAt p c) /\ pointer p x = true.
  Lemma in_callToRet c fs (m : list value) x : In x (callToRetFlow p t c fs m) <->
    In x (allGen p t c fs) \/ (In x m /\ ~ In x (allKill p t c fs) /\ ~ erased c fs x).
  Proof.
    unfold callToRetFlow, erased. destruct (isNil (allGen p t c fs) && isNil (allKill p t c fs)) eqn:E.
    - apply andb_true_iff in E. rewrite !nil_dec in E. destruct E as [E1 E2]. rewrite E1, E2, app_nil_r, filter_In, in_without, negb_true_iff.
      assert (X : mem_ x (argsAt p c) && pointer p x = false <-> ~ (In x (argsAt p c) /\ pointer p x = true)).
      { rewrite <- mem_In, <- andb_true_iff. destruct (mem_ x (argsAt p c) && pointer p x); intuition congruence. }
      rewrite X. cbn. tauto.
    - assert (X : ~ (allGen p t c fs = [] /\ allKill p t c fs = [])).
      { rewrite <- !nil_dec, <- andb_true_iff. congruence. }
      rewrite in_app_iff, in_without. tauto.
  Qed.

  (** *** monotone *)
  Lemma normal_mono n X Y : incl X Y -> incl (normalFlow p n X) (normalFlow p n Y).
  Proof.
    intros S x. unfold normalFlow. destruct (code p n); rewrite ?in_store, ?in_copy; try apply S; pose proof (S x); intuition eauto.
  Qed.
  Lemma call_mono c f X Y : incl X Y -> incl (callFlow p c f X) (callFlow p c f Y).
  Proof. intros S x. rewrite !in_callFlow. intros (i & a & A & B & C & D). exists i, a. auto. Qed.
  Lemma return_mono c f e X Y : incl X Y -> incl (returnFlow p c f e X) (returnFlow p c f e Y).
  Proof.
    intros S x. rewrite !in_returnFlow. intros [(v & A & B & C)|(i & A & B & C & D)]; [left; exists v|right; exists i]; auto.
  Qed.
  Lemma ctr_mono c fs X Y : incl X Y -> incl (callToRetFlow p t c fs X) (callToRetFlow p t c fs Y).
  Proof. intros S x. rewrite !in_callToRet. intros [I|[I J]]; auto. Qed.
End M.

(** ** Bounds for what flows *)
Section B.
  Context {N F : Type} {EN : EqDec N} {EF : EqDec F}.
  Local Notation value := (value N F).
  Variable p : prog N F.
  Variable t : taintEnv N F.
  Variable main : F.
  Variable target : N -> N -> bool.
  Variable A : N -> list value.
  Hypothesis HS : forall sp, entry p main = Some sp -> incl (params p main) (A sp).
  Hypothesis HN : forall n m, isCall p n = false -> In m (succs p n) -> incl (normalFlow p n (A n)) (A m).
  Hypothesis HC : forall c f sp, In f (calleesAt p c) -> entry p f = Some sp -> incl (callFlow p c f (A c)) (A sp).
  Hypothesis HT : forall c r, isCall p c = true -> In r (succs p c) -> incl (callToRetFlow p t c (calleesAt p c) (A c)) (A r).
  Hypothesis HR : forall c e r, isCall p c = true -> isCall p e = false -> In r (succs p c) -> incl (returnFlow p c (fnOf p e) e (A e)) (A r).
  Lemma flows_bound n st X : InterMonoSpec.flows (monoICFG p target) (monoProblem p t main) n st X -> incl X (A n) /\ Forall (fun c => isCall p c = true) st.
  Proof.
    induction 1 as [n X I|n m st X _ [IH S] C E I|n f s st X _ [IH S] C I J|n r st X _ [IH S] C I|n cs r st X _ [IH S] C E I].
    - split; [|constructor]. cbn in I. unfold seeds in I. destruct (entry p main) as [sp|] eqn:Em; [|destruct I]. destruct I as [[= <- <-]|[]]. now apply HS.
    - split; [|exact S]. cbn in *. eapply incl_tran; [apply normal_mono, IH|]. now apply HN.
    - split; [|constructor; assumption]. cbn in *. destruct (entry p f) as [sp|] eqn:Ef; [|destruct J]. destruct J as [<-|[]].
      eapply incl_tran; [apply call_mono, IH|]. eapply HC; eauto.
    - split; [|exact S]. cbn in *. eapply incl_tran; [apply ctr_mono, IH|]. now apply HT.
    - inversion S as [|? ? S1 S2]; subst. split; [|exact S2]. cbn in *. eapply incl_tran; [apply return_mono, IH|]. now apply HR.
  Qed.
End B.

(** ** Executions *)
Section P.
  Context {N F : Type} {EN : EqDec N} {EF : EqDec F}.
  Local Notation value := (value N F).
  Variable p : prog N F.
  Variable P : policy N F.
  Variable t : taintEnv N F.
  Variable main : F.
  Variable target : N -> N -> bool.
  Hypothesis WF : prog_wf p.
  Hypothesis SI : taintSimple p P.
  Hypothesis ME : monoSimple p P t.
  Hypothesis MC : monoConfigured p P t.
  Local Notation pm := (fun i => true && negb (isPtr p (VArg main i))).

  (** the flow functions, fact by fact *)
  Definition single (ff : list value -> list value) (d : value) : list value := if isZero d then VZero :: ff [] else ff [d].
  Definition W : flows N F value :=
    mkFlows (fun n _ => single (normalFlow p n)) (fun c f => single (callFlow p c f)) (fun c _ e _ => single (returnFlow p c (fnOf p e) e))
      (fun c _ => single (callToRetFlow p t c (calleesAt p c))) (fun _ _ => None) VZero.
  Definition S0 : list (N * list value) := match entry p main with Some sp => [(sp, VZero :: params p main)] | None => [] end.
  Local Notation stacks := (map (@fst N F)).
  Lemma single_in ff d d' X : (forall A B, incl A B -> incl (ff A) (ff B)) -> (d = VZero \/ In d X) -> In d' (single ff d) -> d' = VZero \/ In d' (ff X).
  Proof.
    intros Mo Hd. unfold single. destruct (isZero d) eqn:Z.
    - intros [<-|I]; [auto|]. right. apply (Mo [] X); [intros y []|exact I].
    - intros I. right. apply (Mo [d] X); [|exact I]. destruct Hd as [->|Hd]; [discriminate|]. intros y [<-|[]]. exact Hd.
  Qed.
  Lemma valid_flows stk n d : valid (irICFG p) W S0 stk n d ->
    exists X, InterMonoSpec.flows (monoICFG p target) (monoProblem p t main) n (stacks stk) X /\ (d = VZero \/ In d X).
  Proof.
    assert (Sd : forall n ds, In (n, ds) S0 -> ds = VZero :: params p main /\ In (n, params p main) (seeds p main)).
    { intros m ds I. unfold S0, seeds in *. destruct (entry p main); [|destruct I]. destruct I as [[= <- <-]|[]]. cbn. auto. }
    induction 1 as [n ds d I J|n ds I|stk n d n' d' V (X & Fl & Hd) C I J|stk c d r d' V (X & Fl & Hd) C I J
                   |stk c d f sf r d' V (X & Fl & Hd) C I Sm I2 J|stk c d f sp d' V (X & Fl & Hd) C I Sm I2 J|stk c f e d r d' V (X & Fl & Hd) C E I J].
    - destruct (Sd n ds I) as [-> I']. exists (params p main). split; [now apply InterMonoSpec.fl_seed|]. destruct J as [<-|J]; auto.
    - destruct (Sd n ds I) as [-> I']. exists (params p main). split; [now apply InterMonoSpec.fl_seed|]. left. reflexivity.
    - exists (normalFlow p n X). split.
      + change (normalFlow p n X) with (InterMonoModel.normalFlow (monoProblem p t main) n X). apply InterMonoSpec.fl_normal; auto.
        cbn. pose proof (me_code _ _ _ ME n) as R. destruct (code p n) eqn:Cn; auto. cbn in I. rewrite R in I. destruct I.
      + eapply single_in; [apply normal_mono|exact Hd|exact J].
    - exists (callToRetFlow p t c (calleesAt p c) X). split.
      + apply (InterMonoSpec.fl_call_to_return (monoICFG p target) (monoProblem p t main) c r (stacks stk) X); auto.
      + eapply single_in; [apply ctr_mono|exact Hd|exact J].
    - discriminate Sm.
    - exists (callFlow p c f X). split.
      + apply (InterMonoSpec.fl_call (monoICFG p target) (monoProblem p t main) c f sp (stacks stk) X); auto.
      + eapply single_in; [apply call_mono|exact Hd|exact J].
    - exists (returnFlow p c (fnOf p e) e X). split.
      + apply (InterMonoSpec.fl_return (monoICFG p target) (monoProblem p t main) e c r (stacks stk) X); auto.
      + eapply single_in; [apply return_mono|exact Hd|exact J].
  Qed.

  Lemma single_reg ff (d x : value) : isReg d = true -> In x (ff [d]) -> In x (single ff d).
  Proof. intros R I. unfold single. destruct d; try discriminate R; exact I. Qed.
  Lemma single_zero ff (x : value) : x = VZero \/ In x (ff []) -> In x (single ff VZero).
  Proof. intros [->|I]; cbn; auto. Qed.
  Lemma no_kill c x : ~ In x (allKill p t c (calleesAt p c)).
  Proof.
    rewrite in_allKill. intros [Ne H]. destruct (calleesAt p c) as [|f fs]; [contradiction|]. specialize (H f (or_introl eq_refl)).
    unfold sanitized in H. apply in_selected in H. destruct H as (i & _ & _ & S). rewrite (mc_sanitizer _ _ _ MC) in S. discriminate.
  Qed.
  Lemma source_gen c : isSourceCall p t c -> allGen p t c (calleesAt p c) <> [].
  Proof.
    intros (f & I & H). assert (X : exists x, In x (generated p t c f)).
    { unfold generated. destruct H as [H|[H|(i & L1 & L2 & H)]].
      - destruct (sourceCB t c) as [|y l]; [contradiction|]. exists y. left. reflexivity.
      - exists (VInst c). apply in_or_app. right. rewrite H. left. reflexivity.
      - apply nth_error_Some in L2. destruct (nth_error (argsAt p c) i) as [a|] eqn:E; [|contradiction]. exists a.
        apply in_or_app. right. apply in_or_app. right. apply in_selected. eauto. }
    destruct X as (x & X). intros E. assert (Y : In x (allGen p t c (calleesAt p c))) by (apply in_flat_map; eauto). rewrite E in Y. destruct Y.
  Qed.
  Lemma ctr_keeps c d : isReg d = true -> (In d (argsAt p c) -> pointer p d = true -> isSourceCall p t c) ->
    In d (callToRetFlow p t c (calleesAt p c) [d]).
  Proof.
    intros R H. apply in_callToRet. right. split; [left; reflexivity|]. split; [apply no_kill|]. intros (G & _ & I & Q).
    exact (source_gen c (H I Q) G).
  Qed.
  Lemma ctr_gen c f x : In f (calleesAt p c) -> In x (generated p t c f) -> In x (callToRetFlow p t c (calleesAt p c) []).
  Proof. intros I J. apply in_callToRet. left. apply in_flat_map. eauto. Qed.

  Lemma mono_flowsOk : flowsOk p false false false (extTaint p P) main pm W S0.
  Proof.
    split.
    - reflexivity.
    - intros sp Hs. unfold S0. rewrite Hs. split.
      + eapply v_seed; [now left|now left].
      + intros i Hi _. eapply v_seed; [now left|]. right. eapply nth_error_In. now apply nth_params.
    - intros n n' _. apply single_zero. auto.
    - intros n n' d _ Hr Hk. left. apply single_reg; [exact Hr|]. unfold normalFlow, killed in *.
      destruct (code p n); rewrite ?in_store, ?in_copy; cbn; auto.
    - intros n n' d Hd Hr. apply single_reg; [exact Hr|]. unfold flowsFrom, normalFlow in *. pose proof (ts_code _ _ SI n) as S.
      pose proof (me_code _ _ _ ME n) as S'. assert (Rg : register d) by (destruct d; try discriminate Hr; exact Logic.I).
      destruct (code p n) as [b|v q|q|v|q idx|vs|agg|agg v|ops|b fs args|v]; try (destruct Hd; fail).
      + destruct Hd as [->|[]]. apply in_copy. cbn. auto.
      + destruct Hd as [->|[]]. apply in_copy. cbn. auto.
      + destruct Hd as [->|[]]. apply in_copy. cbn. auto.
      + specialize (S d Hd). destruct d; try discriminate; destruct S.
      + destruct Hd as [->|[]]. contradiction.
      + destruct S' as [S1 S2]. destruct Hd as [->|[->|[]]]; contradiction.
    - discriminate.
    - discriminate.
    - intros n. pose proof (ts_code _ _ SI n) as S. destruct (code p n); auto.
    - intros n n' v q Hn Hr Hv Hq. apply single_reg; [exact Hr|]. unfold normalFlow. rewrite Hn. apply in_store. left. cbn. auto.
    - discriminate.
    - intros c f i a Hf Hb Hi. split; [|auto]. destruct (ts_args _ _ SI c f i a Hf Hi) as [S|[S _]]; [exact S|contradiction].
    - intros c f i j a Hf Hb Ha Hi Hj. eapply (ts_noalias _ _ SI); eauto.
    - reflexivity.
    - intros c f _ _. apply single_zero. auto.
    - intros c f i a Hf Hb Hi Hr Hl. apply single_reg; [exact Hr|]. apply in_callFlow. exists i, a. cbn. auto.
    - intros c r _. apply single_zero. auto.
    - intros c r d Hc Hr Hd. apply single_reg; [exact Hr|]. apply ctr_keeps; [exact Hr|]. intros I Q.
      assert (Rg : register d) by (destruct d; try discriminate Hr; exact Logic.I).
      destruct (me_pointers _ _ _ ME c d I Rg) as [V|S]; [destruct d; try discriminate Hr; exact Q| |exact S].
      exfalso. rewrite var_cell in V. exact (Hd V I).
    - intros c f e r v Hf Hb He Hv Hr. apply single_reg; [exact Hr|]. apply in_returnFlow. left. exists v. cbn. auto.
    - reflexivity.
    - intros c f e r i a Hf Hb He Hi Ha Hl. apply single_reg; [reflexivity|]. apply in_returnFlow. right. exists i. rewrite He.
      split; [exact Hi|]. split; [exact Hl|]. split; [|left; reflexivity].
      destruct (ts_args _ _ SI c f i a Hf Hi) as [S|[S _]]; [|contradiction]. rewrite <- S, var_cell. exact Ha.
    - intros c f Hf Hb. symmetry. now apply (ts_params _ _ SI).
    - intros c b fs args f r E cs M x M' Hc Hf Hb Hcs [Hx HM] Hun Hgl.
      assert (Hfc : In f (calleesAt p c)) by (unfold calleesAt; now rewrite Hc).
      assert (Ha : argsAt p c = args) by (unfold argsAt; now rewrite Hc).
      split.
      + intros Hm. destruct (Hx Hm) as [S|(i & _ & Ho)]; [|rewrite (me_lib _ _ _ ME) in Ho; destruct Ho].
        exists VZero. split; [now left|]. left. apply single_zero. right. apply (ctr_gen c f); [exact Hfc|]. unfold generated.
        destruct (mc_srcCall _ _ _ MC c S) as [Y|Y]; apply in_or_app; [right; rewrite Y; now left|now left].
      + intros l Hl. destruct (HM l Hl) as [Hm|(j & m & Hj & Hp & Hs)].
        * assert (Dec : (exists a m, In a args /\ isCell p a = true /\ E a = Some (PPtr l, m)) \/
                        forall a m, In a args -> isCell p a = true -> E a <> Some (PPtr l, m)).
          { clear. induction args as [|a args [(a' & m & H1 & H2 & H3)|IH]]; [right; intros a m []|left; exists a', m; cbn; auto|].
            destruct (isCell p a) eqn:Ca; [|right; intros a' m [<-|H] H'; [congruence|eauto]].
            destruct (E a) as [[[z|l'] m]|] eqn:Ea.
            - right. intros a' m' [<-|H] H'; [congruence|eauto].
            - destruct (eq_dec l' l) as [->|Hne]; [left; exists a, m; cbn; auto|].
              right. intros a' m' [<-|H] H'; [congruence|eauto].
            - right. intros a' m' [<-|H] H'; [congruence|eauto]. }
          destruct Dec as [(a & m & H1 & H2 & H3)|H]; [left|right; auto].
          exists a. split; auto. split; auto. split; [eauto|]. exists a. split; [right; right; eauto 6|]. pose proof (cell_reg p _ H2) as Hr.
          left. apply single_reg; [exact Hr|]. apply ctr_keeps; [exact Hr|]. intros _ _. apply (me_extern _ _ _ ME c f a); auto. now rewrite Ha.
        * destruct Hs as [Hs|(i & _ & Ho)]; [|rewrite (me_lib _ _ _ ME) in Ho; destruct Ho].
          destruct (args_eval E args cs j _ Hcs Hj) as (a & Hja & Hea). rewrite <- Ha in Hja.
          assert (Ca : isCell p a = true).
          { destruct (ts_args _ _ SI c f j a Hfc Hja) as [S|(_ & S1 & _)]; [rewrite <- var_cell; congruence|congruence]. }
          left. exists a. split; [rewrite <- Ha; eapply nth_error_In; eauto|]. split; auto.
          rewrite eval_reg in Hea by now apply (cell_reg p). split; [eauto|].
          exists VZero. split; [now left|]. left. apply single_zero. right. apply (ctr_gen c f); [exact Hfc|]. unfold generated.
          destruct (mc_srcParam _ _ _ MC c f j a Hs Hja) as [Y|Y]; apply in_or_app; [right|now left]. apply in_or_app. right.
          apply in_selected. exists j. split; [exact Hja|]. split; [|exact Y]. eapply (ts_policy _ _ SI c f j). auto.
  Qed.

  Lemma mono_reported f n E K M k v :
    taintRuns p false (extTaint p P) main true (n, E, K, M, k) -> leaksAt p P f n E M v ->
    exists X, InterMonoSpec.flows (monoICFG p target) (monoProblem p t main) n (map (fun x => fst (fst x)) K) X /\
      In v (leaksOf p t n (calleesAt p n) X).
  Proof.
    intros He (Hf & i & Hi & Hlt & Hsink & Hv).
    assert (Ho : In v (operands p n)).
    { apply nth_error_In in Hi. unfold argsAt, operands in *. destruct (code p n); auto; destruct Hi. }
    assert (X : isReg v = true /\ ((exists c, E v = Some c /\ marked c = true) \/
       (isCell p v = true /\ exists l m, E v = Some (PPtr l, m) /\ marked (M l) = true))).
    { destruct Hv as [(pl & Hv)|(Hv & l & m & Hl & Hm)].
      - destruct (eval_marked false E v _ Hv eq_refl) as [[R1 R2]|[_ Hu]]; [|discriminate]. split; eauto.
      - rewrite var_cell in Hv. pose proof (cell_reg p _ Hv) as Hr. rewrite eval_reg in Hl by auto. split; eauto 8. }
    destruct X as [Hr X].
    assert (V : valid (irICFG p) W S0 (stkOf K) n v).
    { eapply (marked_valid p false false false (extTaint p P) main pm W); eauto using mono_flowsOk.
      intros j Hj. apply andb_true_iff in Hj as [_ Hj]. now apply negb_true_iff in Hj. }
    destruct (valid_flows _ _ _ V) as (Y & Fl & [->|IY]); [discriminate Hr|]. exists Y. split.
    - unfold stkOf in Fl. rewrite map_map in Fl. exact Fl.
    - unfold leaksOf. apply in_flat_map. exists f. split; [exact Hf|]. apply filter_In. split; [|now apply mem_In].
      unfold leak. destruct (mc_sink _ _ _ MC n f i v Hsink Hi) as [Z|Z]; apply in_or_app; [right|now left].
      apply in_selected. eauto.
  Qed.
End P.
