(** Phase I of the IDE solver: soundness of the computed jump functions for
    every schedule. *)
From Coq Require Import List Bool Permutation Lia.
From Verif Require Import Assoc TableModel TableProofs JumpFunctionsModel JumpFunctionsProofs
  IDESolverModel IDESpec.
Import ListNotations.

Section P1.
  Context {N F D L EF : Type} `{EqDec N} `{EqDec F} `{EqDec D}.
  Variable G : icfg N F.
  Variable P : problem N F D L EF.
  Variable follow : bool.
  Variable S0 : @seeds N D L.          (* seeds including zero *)
  Hypothesis WF : icfg_wf G.
  Hypothesis LL : lattice_laws P.
  Hypothesis ES : ef_sound_nt P.

  Notation state := (@state N D EF).
  Notation item := (@item N D EF).
  Notation lle := (lle P).
  Notation ap := (apply P).
  Notation itab := (table N D (list (N * list D))).
  Notation etab := (table N D (table N D EF)).
  Implicit Types (I : itab) (E : etab) (n c r sp e : N) (d : D) (f fs : EF).

  Lemma lle_refl x : lle x x.
  Proof. apply (ll_idem _ LL). Qed.
  Lemma lle_trans x y z : lle x y -> lle y z -> lle x z.
  Proof.
    unfold IDESpec.lle. intros E1 E2. rewrite <- E2 at 1.
    rewrite (ll_assoc _ LL), E1. exact E2.
  Qed.
  Lemma lle_antisym x y : lle x y -> lle y x -> x = y.
  Proof.
    unfold IDESpec.lle. intros E1 E2. transitivity (joinL P y x); [auto|].
    rewrite (ll_comm _ LL). exact E1.
  Qed.
  Lemma lle_join_l x y : lle x (joinL P x y).
  Proof. unfold IDESpec.lle. rewrite (ll_assoc _ LL), (ll_idem _ LL). reflexivity. Qed.
  Lemma lle_join_r x y : lle y (joinL P x y).
  Proof. rewrite (ll_comm _ LL). apply lle_join_l. Qed.
  Lemma lle_join_lub x y z : lle x z -> lle y z -> lle (joinL P x y) z.
  Proof.
    unfold IDESpec.lle. intros E1 E2. rewrite <- (ll_assoc _ LL), E2. exact E1.
  Qed.
  Lemma lle_top x : lle (topElement P) x.
  Proof. apply (ll_top _ LL). Qed.
  Lemma lle_to_top x : lle x (topElement P) -> x = topElement P.
  Proof. intros E. apply lle_antisym; auto using lle_top. Qed.

  Lemma nontop_le x y : nontop P x -> lle x y -> nontop P y.
  Proof. intros Hx Hle ->. apply Hx. apply lle_to_top; auto. Qed.

  (** pointwise order on edge functions *)
  Definition efle (f g : EF) : Prop := forall x, lle (ap f x) (ap g x).
  Lemma efle_refl f : efle f f.
  Proof. intros x; apply lle_refl. Qed.
  Lemma efle_trans f g h : efle f g -> efle g h -> efle f h.
  Proof. intros E1 E2 x. eapply lle_trans; eauto. Qed.
  Lemma efle_top f : efle (allTop P) f.
  Proof. intros x. rewrite (en_top _ ES). apply lle_top. Qed.
  Lemma efEqb_top_efle f g : efEqb P f (allTop P) = true -> efle f g.
  Proof. intros E x. rewrite (en_eqb _ ES _ _ E). apply efle_top. Qed.

  (** current jump function *)
  Definition jfn (J : jumpfns N D EF) d1 n d2 : EF :=
    match jf_get J d1 n d2 with Some f => f | None => allTop P end.

  Lemma jumpFunction_jfn J d1 n d2 : jf_ok J -> jumpFunction P J d1 n d2 = jfn J d1 n d2.
  Proof.
    intros Hok. unfold jumpFunction, jfn. rewrite <- (afind_fwdl _ _ _ _ Hok). unfold fwdl.
    destruct (jf_forward J d1 n); auto.
  Qed.

  Definition cov (st : state) (it : item) : Prop :=
    let '(d1, n, d2, f) := it in
    efle f (jfn (st_jf st) d1 n d2) \/
    exists g, In (d1, n, d2, g) (st_wl st) /\ efle f g.

  Definition registered (I : table N D (list (N * list D))) sp d3 c d2 : Prop :=
    exists ds, afind c (incoming I d3 sp) = Some ds /\ In d2 ds.

  (** the pushes of processCall that do not depend on end summaries *)
  Definition callPushes0 (f : EF) (d1 : D) (n : N) (d2 : D) : list item :=
    flat_map (fun callee =>
      match sumFF P n callee with
      | Some sf => summaryPushes G P sf f d1 n d2
      | None => flat_map (fun sp => map (fun d3 => (d3, sp, d3, edgeIdentity P)) (callFF P n callee d2))
                         (getStartPointsOf G callee)
      end) (getCalleesOfCallAt G n)
    ++ ctrPushes G P f d1 n d2.

  Definition retFn c d2 callee d3 fs e d4 r d5 (f : EF) : EF :=
    extend P f (extend P (extend P (callEF P c d2 callee d3) fs) (retEF P c callee e d4 r d5)).

  Definition inc_wf (I : table N D (list (N * list D))) : Prop :=
    forall sp d, NoDup (akeys (incoming I d sp)).

  Record Inv (st : state) : Prop := {
    i_jf : jf_ok (st_jf st);
    i_nt : forall d1 n d2 f, jf_get (st_jf st) d1 n d2 = Some f -> efEqb P f (allTop P) = false;
    i_incwf : inc_wf (st_inc st);
    i_eswf : t_wf (st_es st) /\ forall sp d, t_wf (t_get [] (st_es st) sp d);
    i_es : forall sp d1 e d2 f, isCallSite G e = false -> isExitInst G e = true ->
             In sp (getStartPointsOf G (getFunctionOf G e)) ->
             jf_get (st_jf st) d1 e d2 = Some f -> In (e, d2, f) (endSummary (st_es st) sp d1);
    i_norm : forall d1 n d2 f, jf_get (st_jf st) d1 n d2 = Some f -> isCallSite G n = false ->
             forall it, In it (normalPushes G P f d1 n d2) -> cov st it;
    i_call : forall d1 n d2 f, jf_get (st_jf st) d1 n d2 = Some f -> isCallSite G n = true ->
             forall it, In it (callPushes0 f d1 n d2) -> cov st it;
    i_inc : forall d1 n d2 f, jf_get (st_jf st) d1 n d2 = Some f -> isCallSite G n = true ->
             forall sp d3, In (sp, d3) (callIncoming G P n d2) -> registered (st_inc st) sp d3 n d2;
    i_incsame : forall g sp sp' d c d2, In sp (getStartPointsOf G g) -> In sp' (getStartPointsOf G g) ->
             registered (st_inc st) sp d c d2 -> registered (st_inc st) sp' d c d2;
    i_ret : forall d1 c d2 f callee sp d3 e d4 fs r d5,
             jf_get (st_jf st) d1 c d2 = Some f -> isCallSite G c = true ->
             In callee (getCalleesOfCallAt G c) -> sumFF P c callee = None ->
             In sp (getStartPointsOf G callee) -> In d3 (callFF P c callee d2) ->
             jf_get (st_jf st) d3 e d4 = Some fs -> isCallSite G e = false -> isExitInst G e = true ->
             getFunctionOf G e = callee -> In r (getReturnSitesOfCallAt G c) ->
             In d5 (retFF P c callee e r d4) ->
             cov st (d1, r, d5, retFn c d2 callee d3 fs e d4 r d5 f);
    i_seed : forall it, In it (seedItems P S0) -> cov st it
  }.

  Lemma jfn_empty d1 n d2 : jfn jf_empty d1 n d2 = allTop P.
  Proof. reflexivity. Qed.

  Lemma Inv_init st :
    st_jf st = jf_empty -> st_es st = [] -> st_inc st = [] ->
    Permutation (st_wl st) (seedItems P S0) -> Inv st.
  Proof.
    intros EJ EE EI HP.
    split; rewrite ?EJ, ?EE, ?EI; try (intros; discriminate).
    - apply jf_ok_empty.
    - intros sp d. constructor.
    - split; [apply t_wf_empty|intros; apply t_wf_empty].
    - intros g sp sp' d c d2 _ _ [ds [E _]]. discriminate E.
    - intros [[[d1 n] d2] f] Hin. right. exists f. split; [|apply efle_refl].
      eapply Permutation_in; [symmetry; eauto|auto].
  Qed.

  (** ** transport of coverage *)
  Definition cov_le (st st' : state) : Prop := forall it, cov st it -> cov st' it.

  Lemma cov_grow st st' :
    (forall d1 n d2, efle (jfn (st_jf st) d1 n d2) (jfn (st_jf st') d1 n d2)) ->
    (forall d1 n d2 f, In (d1, n, d2, f) (st_wl st) -> cov st' (d1, n, d2, f)) ->
    cov_le st st'.
  Proof.
    intros HJ HW [[[d1 n] d2] f] [Hc|[g [Hin Hle]]].
    - left. eapply efle_trans; eauto.
    - apply HW in Hin. destruct Hin as [Hc|[g' [Hin Hle']]].
      + left. eapply efle_trans; eauto.
      + right. exists g'. split; auto. eapply efle_trans; eauto.
  Qed.

  Lemma push_In ps wl (it : item) : In it (push ps wl) <-> In it ps \/ In it wl.
  Proof. unfold push. rewrite rev_append_rev, in_app_iff, <- in_rev. tauto. Qed.

  Lemma incoming_add I sp d3 n d2 sp' d3' :
    incoming (addIncoming I sp d3 n d2) d3' sp' =
    if eq_dec (sp', d3') (sp, d3)
    then aset n (sinsert d2 (afindd [] n (incoming I d3 sp))) (incoming I d3 sp)
    else incoming I d3' sp'.
  Proof.
    unfold addIncoming. unfold incoming at 1, t_get at 1. rewrite t_lookup_insert.
    destruct (eq_dec _ _); reflexivity.
  Qed.

  Lemma In_afindd_incoming_add I sp d3 n d2 sp' d3' c d2' :
    registered (addIncoming I sp d3 n d2) sp' d3' c d2' <->
    (sp' = sp /\ d3' = d3 /\ c = n /\ d2' = d2) \/ registered I sp' d3' c d2'.
  Proof.
    unfold registered. rewrite incoming_add.
    destruct (eq_dec (sp', d3') (sp, d3)) as [E|Hne].
    - injection E; intros -> ->. rewrite afind_aset.
      destruct (eq_dec c n) as [->|Hc].
      + split.
        * intros [ds [E1 Hin]]. injection E1; intros <-. apply In_sinsert in Hin.
          destruct Hin as [->|Hin]; auto. right. unfold afindd in Hin.
          destruct (afind n (incoming I d3 sp)) as [ds|]; [eauto|destruct Hin].
        * intros [[_ [_ [_ ->]]]|[ds [E1 Hin]]]; eexists; (split; [reflexivity|]); apply In_sinsert; auto.
          right. unfold afindd. rewrite E1. auto.
      + split.
        * intros Hr; right; exact Hr.
        * intros [[_ [_ [Hx _]]]|Hr]; [congruence|exact Hr].
    - split.
      + intros Hr; right; exact Hr.
      + intros [[-> [-> _]]|Hr]; [congruence|exact Hr].
  Qed.

  Lemma registered_fold n d2 l : forall I sp' d3' c d2',
    registered (fold_left (fun I '(sp, d3) => addIncoming I sp d3 n d2) l I) sp' d3' c d2' <->
    (In (sp', d3') l /\ c = n /\ d2' = d2) \/ registered I sp' d3' c d2'.
  Proof.
    induction l as [|[sp d3] l IH]; intros; simpl; [tauto|].
    rewrite IH, In_afindd_incoming_add. split.
    - intros [[Hin [-> ->]]|[[-> [-> [-> ->]]]|Hr]]; auto.
    - intros [[[E|Hin] [-> ->]]|Hr]; auto. injection E; intros; subst. right; left; auto.
  Qed.

  Lemma endSummary_add (E0 : etab) sp d1 e d2 f sp' d1' e' d2' f' :
    t_wf E0 -> (forall sp d, t_wf (t_get [] E0 sp d)) ->
    (In (e', d2', f') (endSummary (addEndSummary E0 sp d1 e d2 f) sp' d1') <->
     if eq_dec (sp', d1', e', d2') (sp, d1, e, d2) then f' = f
     else In (e', d2', f') (endSummary E0 sp' d1')).
  Proof.
    intros Hw Hw2. unfold endSummary, addEndSummary. unfold t_get at 1.
    rewrite t_lookup_insert. destruct (eq_dec (sp', d1') (sp, d1)) as [E|Hne].
    - injection E; intros -> ->. rewrite t_cells_In by (apply t_wf_insert; auto).
      rewrite t_lookup_insert. destruct (eq_dec (e', d2') (e, d2)) as [E2|Hne2].
      + injection E2; intros -> ->. destruct (eq_dec _ _); [|congruence].
        split; congruence.
      + destruct (eq_dec (sp, d1, e', d2') _); [congruence|].
        rewrite t_cells_In by auto. tauto.
    - destruct (eq_dec _ _); [congruence|]. tauto.
  Qed.

  Lemma addEndSummary_wf (E0 : etab) sp d1 e d2 f :
    t_wf E0 /\ (forall sp d, t_wf (t_get [] E0 sp d)) ->
    t_wf (addEndSummary E0 sp d1 e d2 f) /\
    (forall sp' d', t_wf (t_get [] (addEndSummary E0 sp d1 e d2 f) sp' d')).
  Proof.
    intros [Hw Hw2]. unfold addEndSummary. split; [apply t_wf_insert; auto|].
    intros. unfold t_get at 1. rewrite t_lookup_insert. destruct (eq_dec _ _).
    - apply t_wf_insert; auto.
    - apply Hw2.
  Qed.

  Lemma endSummary_fold sps d1 e d2 f : forall (E0 : etab),
    t_wf E0 /\ (forall sp d, t_wf (t_get [] E0 sp d)) ->
    let ES' := fold_left (fun ES sp => addEndSummary ES sp d1 e d2 f) sps E0 in
    (t_wf ES' /\ (forall sp d, t_wf (t_get [] ES' sp d))) /\
    forall sp' d1' e' d2' f',
      In (e', d2', f') (endSummary ES' sp' d1') <->
      if eq_dec (d1', e', d2') (d1, e, d2)
      then (In sp' sps /\ f' = f) \/ (~ In sp' sps /\ In (e', d2', f') (endSummary E0 sp' d1'))
      else In (e', d2', f') (endSummary E0 sp' d1').
  Proof.
    induction sps as [|sp sps IH]; intros E0 Hw; simpl.
    - split; auto. intros. destruct (eq_dec _ _); tauto.
    - destruct (IH (addEndSummary E0 sp d1 e d2 f) (addEndSummary_wf _ _ _ _ _ _ Hw)) as [Hw' HI].
      split; auto. intros. rewrite HI. destruct Hw as [Hw Hw2].
      destruct (eq_dec (d1', e', d2') (d1, e, d2)) as [E|Hne].
      + injection E; intros -> -> ->. rewrite endSummary_add by auto.
        destruct (eq_dec (sp', d1, e, d2) (sp, d1, e, d2)) as [E2|Hne2].
        * injection E2; intros ->. destruct (in_dec eq_dec sp sps); intuition.
        * assert (sp <> sp') by congruence. intuition.
      + rewrite endSummary_add by auto.
        destruct (eq_dec (sp', d1', e', d2') (sp, d1, e, d2)); [congruence|tauto].
  Qed.

  (** Inc as computed by processExit contains every registered caller *)
  Lemma exitInc_inner l : forall (Inc : list (N * list D)) c,
    afind c (fold_left (fun Inc '(c, ds) => aset c ds Inc) l Inc) =
    match afind c (rev l) with Some ds => Some ds | None => afind c Inc end.
  Proof.
    induction l as [|[c0 ds0] l IH]; intros; simpl; auto.
    rewrite IH. clear IH.
    assert (E : forall (l1 : list (N * list D)) x, afind c (l1 ++ [x]) =
       match afind c l1 with Some ds => Some ds | None => afind c [x] end).
    { induction l1 as [|[c1 ds1] l1 IH]; intros; [reflexivity|]. simpl app. cbn [afind]. destruct (eq_dec c c1); [reflexivity|apply IH]. }
    rewrite E. simpl. destruct (afind c (rev l)); auto.
    rewrite afind_aset. destruct (eq_dec c c0); auto.
  Qed.

  Lemma afind_rev_Some (l : list (N * list D)) c : NoDup (akeys l) -> afind c (rev l) = afind c l.
  Proof.
    intros Hnd. destruct (afind c l) as [ds|] eqn:E.
    - apply In_afind.
      + unfold akeys. rewrite map_rev. apply NoDup_rev; auto.
      + rewrite <- in_rev. apply afind_In; auto.
    - apply afind_None. apply afind_None in E. intros Hin. apply E.
      unfold akeys in *. rewrite map_rev in Hin. apply in_rev; auto.
  Qed.

  Lemma inc_wf_add I sp d3 n d2 : inc_wf I -> inc_wf (addIncoming I sp d3 n d2).
  Proof.
    intros Hw sp' d'. rewrite incoming_add. destruct (eq_dec _ _).
    - apply NoDup_aset; apply Hw.
    - apply (Hw sp' d').
  Qed.
  Lemma inc_wf_fold n d2 l : forall I, inc_wf I ->
    inc_wf (fold_left (fun I '(sp, d3) => addIncoming I sp d3 n d2) l I).
  Proof.
    induction l as [|[sp d3] l IH]; intros; simpl; auto. apply IH. apply inc_wf_add; auto.
  Qed.

  Lemma exitInc_spec_gen I d1 sps : inc_wf I -> forall Inc0 c ds,
    afind c (fold_left (fun Inc sp =>
      fold_left (fun Inc '(c, ds) => aset c ds Inc) (incoming I d1 sp) Inc) sps Inc0) = Some ds ->
    (exists sp, In sp sps /\ afind c (incoming I d1 sp) = Some ds) \/ afind c Inc0 = Some ds.
  Proof.
    intros Hw. induction sps as [|sp sps IH]; intros Inc0 c ds E; simpl in *; auto.
    apply IH in E. destruct E as [[sp' [Hin E]]|E]; [left; eauto|].
    rewrite exitInc_inner, afind_rev_Some in E by apply Hw.
    destruct (afind c (incoming I d1 sp)) eqn:E2.
    - injection E; intros <-. left; eauto.
    - auto.
  Qed.

  Lemma exitInc_some_gen I d1 sps : inc_wf I -> forall Inc0 c,
    (afind c Inc0 <> None \/ exists sp, In sp sps /\ afind c (incoming I d1 sp) <> None) ->
    afind c (fold_left (fun Inc sp =>
      fold_left (fun Inc '(c, ds) => aset c ds Inc) (incoming I d1 sp) Inc) sps Inc0) <> None.
  Proof.
    intros Hw. induction sps as [|sp sps IH]; intros Inc0 c Hc; simpl.
    - destruct Hc as [Hc|[sp [[] _]]]; auto.
    - apply IH. rewrite exitInc_inner, afind_rev_Some by apply Hw.
      destruct (afind c (incoming I d1 sp)) eqn:E; [left; congruence|].
      destruct Hc as [Hc|[sp' [[->|Hin] Hc]]]; [left; auto|congruence|right; eauto].
  Qed.

  Lemma exitInc_NoDup I d1 sps : forall Inc0, NoDup (akeys Inc0) ->
    NoDup (akeys (fold_left (fun Inc sp =>
      fold_left (fun (Inc : list (N * list D)) '(c, ds) => aset c ds Inc) (incoming I d1 sp) Inc) sps Inc0)).
  Proof.
    induction sps as [|sp sps IH]; intros; simpl; auto. apply IH.
    generalize dependent Inc0. induction (incoming I d1 sp) as [|[c ds] l IHl]; intros; simpl; auto.
    apply IHl. apply NoDup_aset; auto.
  Qed.

  Lemma exitInc_covers I d1 g sp c d4 :
    inc_wf I ->
    (forall sp sp' d c d2, In sp (getStartPointsOf G g) -> In sp' (getStartPointsOf G g) ->
       registered I sp d c d2 -> registered I sp' d c d2) ->
    In sp (getStartPointsOf G g) -> registered I sp d1 c d4 ->
    exists ds, In (c, ds) (exitInc I d1 (getStartPointsOf G g)) /\ In d4 ds.
  Proof.
    intros Hw Hsame Hsp Hreg.
    assert (Hsome : afind c (exitInc I d1 (getStartPointsOf G g)) <> None).
    { apply exitInc_some_gen; auto. right. exists sp. split; auto.
      destruct Hreg as [ds [E _]]. congruence. }
    destruct (afind c (exitInc I d1 (getStartPointsOf G g))) as [ds|] eqn:E; [|congruence].
    exists ds. split; [apply afind_In; auto|].
    apply exitInc_spec_gen in E; auto. destruct E as [[sp' [Hin E]]|E]; [|discriminate].
    destruct (Hsame sp sp' d1 c d4 Hsp Hin Hreg) as [ds' [E' Hin']]. congruence.
  Qed.

  (** ** one solver step preserves the invariant *)

  Lemma Inv_cov st st' :
    Inv st -> st_jf st' = st_jf st -> st_es st' = st_es st -> st_inc st' = st_inc st ->
    cov_le st st' -> Inv st'.
  Proof.
    intros [A1 A2 A3 A4 A5 A6 A7 A8 A9 A10 A11] EJ EE EI HC.
    split; rewrite ?EJ, ?EE, ?EI; auto.
    - intros; eapply HC, A6; eauto.
    - intros; eapply HC, A7; eauto.
    - intros; eapply HC, A10; eauto.
  Qed.

  Lemma normalPushes_In f d1 n d2 it :
    In it (normalPushes G P f d1 n d2) <->
    exists n' d3, In n' (getSuccsOf G n) /\ In d3 (normalFF P n n' d2) /\
      it = (d1, n', d3, extend P f (normalEF P n d2 n' d3)).
  Proof.
    unfold normalPushes. rewrite in_flat_map. split.
    - intros [n' [Hn Hin]]. apply in_map_iff in Hin. destruct Hin as [d3 [<- Hd]]. eauto 6.
    - intros [n' [d3 [Hn [Hd ->]]]]. exists n'. split; auto. apply in_map_iff; eauto.
  Qed.

  Lemma ctrPushes_In f d1 n d2 it :
    In it (ctrPushes G P f d1 n d2) <->
    exists r d3, In r (getReturnSitesOfCallAt G n) /\ In d3 (ctrFF P n r d2) /\
      it = (d1, r, d3, extend P f (ctrEF P n d2 r d3)).
  Proof.
    unfold ctrPushes. rewrite in_flat_map. split.
    - intros [n' [Hn Hin]]. apply in_map_iff in Hin. destruct Hin as [d3 [<- Hd]]. eauto 6.
    - intros [n' [d3 [Hn [Hd ->]]]]. exists n'. split; auto. apply in_map_iff; eauto.
  Qed.

  Lemma summaryPushes_In sf f d1 n d2 it :
    In it (summaryPushes G P sf f d1 n d2) <->
    exists r d3, In r (getReturnSitesOfCallAt G n) /\ In d3 (sf d2) /\
      it = (d1, r, d3, extend P f (sumEF P n d2 r d3)).
  Proof.
    unfold summaryPushes. rewrite in_flat_map. split.
    - intros [n' [Hn Hin]]. apply in_map_iff in Hin. destruct Hin as [d3 [<- Hd]]. eauto 6.
    - intros [n' [d3 [Hn [Hd ->]]]]. exists n'. split; auto. apply in_map_iff; eauto.
  Qed.

  Lemma endSummaryPushes_In E f d1 n d2 callee sp d3 it :
    In it (endSummaryPushes G P E f d1 n d2 callee sp d3) <->
    exists e d4 fs r d5, In (e, d4, fs) (endSummary E sp d3) /\
      In r (getReturnSitesOfCallAt G n) /\ In d5 (retFF P n callee e r d4) /\
      it = (d1, r, d5, retFn n d2 callee d3 fs e d4 r d5 f).
  Proof.
    unfold endSummaryPushes. rewrite in_flat_map. split.
    - intros [[[e d4] fs] [He Hin]]. apply in_flat_map in Hin. destruct Hin as [r [Hr Hin]].
      apply in_map_iff in Hin. destruct Hin as [d5 [<- Hd]]. exists e, d4, fs, r, d5. auto.
    - intros (e & d4 & fs & r & d5 & He & Hr & Hd & ->). exists (e, d4, fs). split; auto.
      apply in_flat_map. exists r. split; auto. apply in_map_iff. exists d5; auto.
  Qed.

  Lemma calleePushes_In E f d1 n d2 callee it :
    In it (calleePushes G P E f d1 n d2 callee) <->
    exists sp d3, In sp (getStartPointsOf G callee) /\ In d3 (callFF P n callee d2) /\
      (it = (d3, sp, d3, edgeIdentity P) \/ In it (endSummaryPushes G P E f d1 n d2 callee sp d3)).
  Proof.
    unfold calleePushes. rewrite in_flat_map. split.
    - intros [sp [Hsp Hin]]. apply in_flat_map in Hin. destruct Hin as [d3 [Hd [<-|Hin]]]; eauto 7.
    - intros [sp [d3 [Hsp [Hd Hit]]]]. exists sp. split; auto. apply in_flat_map. exists d3.
      split; auto. destruct Hit as [->|Hit]; [left; auto|right; auto].
  Qed.

  Lemma callPushes_In E f d1 n d2 it :
    In it (callPushes G P E f d1 n d2) <->
    (exists callee, In callee (getCalleesOfCallAt G n) /\
       match sumFF P n callee with
       | Some sf => In it (summaryPushes G P sf f d1 n d2)
       | None => In it (calleePushes G P E f d1 n d2 callee)
       end) \/ In it (ctrPushes G P f d1 n d2).
  Proof.
    unfold callPushes. rewrite in_app_iff, in_flat_map. split.
    - intros [[callee [Hc Hin]]|Hin]; auto. left. exists callee. split; auto.
      destruct (sumFF P n callee); auto.
    - intros [[callee [Hc Hin]]|Hin]; auto. left. exists callee. split; auto.
      destruct (sumFF P n callee); auto.
  Qed.

  Lemma callPushes0_sub E f d1 n d2 it :
    In it (callPushes0 f d1 n d2) -> In it (callPushes G P E f d1 n d2).
  Proof.
    unfold callPushes0. rewrite in_app_iff, in_flat_map, callPushes_In.
    intros [[callee [Hc Hin]]|Hin]; auto. left. exists callee. split; auto.
    destruct (sumFF P n callee); auto.
    apply calleePushes_In. apply in_flat_map in Hin. destruct Hin as [sp [Hsp Hin]].
    apply in_map_iff in Hin. destruct Hin as [d3 [<- Hd]]. exists sp, d3. auto.
  Qed.

  Lemma callIncoming_In n d2 sp d3 :
    In (sp, d3) (callIncoming G P n d2) <->
    exists callee, In callee (getCalleesOfCallAt G n) /\ sumFF P n callee = None /\
      In sp (getStartPointsOf G callee) /\ In d3 (callFF P n callee d2).
  Proof.
    unfold callIncoming. rewrite in_flat_map. split.
    - intros [callee [Hc Hin]]. destruct (sumFF P n callee) eqn:E; [destruct Hin|].
      apply in_flat_map in Hin. destruct Hin as [sp' [Hsp Hin]].
      apply in_map_iff in Hin. destruct Hin as [d3' [E2 Hd]]. injection E2; intros; subst. eauto 6.
    - intros [callee [Hc [E [Hsp Hd]]]]. exists callee. split; auto. rewrite E.
      apply in_flat_map. exists sp. split; auto. apply in_map_iff. eauto.
  Qed.

  Lemma returnPushes_In J Inc f d1 n d2 it :
    In it (returnPushes G P J Inc f d1 n d2) <->
    exists c d4s r d4 d5 d3 f3, In (c, d4s) Inc /\ In r (getReturnSitesOfCallAt G c) /\
      In d4 d4s /\ In d5 (retFF P c (getFunctionOf G n) n r d2) /\
      In (d3, f3) (revl J c d4) /\ efEqb P f3 (allTop P) = false /\
      it = (d3, r, d5, retFn c d4 (getFunctionOf G n) d1 f n d2 r d5 f3).
  Proof.
    unfold returnPushes. rewrite in_flat_map. split.
    - intros [[c d4s] [Hc Hin]]. apply in_flat_map in Hin. destruct Hin as [r [Hr Hin]].
      apply in_flat_map in Hin. destruct Hin as [d4 [Hd4 Hin]].
      apply in_flat_map in Hin. destruct Hin as [d5 [Hd5 Hin]].
      unfold revl. destruct (jf_reverse J c d4) as [l|] eqn:E; [|destruct Hin].
      apply in_flat_map in Hin. destruct Hin as [[d3 f3] [Hl Hin]].
      destruct (efEqb P f3 (allTop P)) eqn:E3; [destruct Hin|].
      destruct Hin as [<-|[]].
      exists c, d4s, r, d4, d5, d3, f3. rewrite E. auto 9.
    - intros (c & d4s & r & d4 & d5 & d3 & f3 & Hc & Hr & Hd4 & Hd5 & Hl & E3 & ->).
      exists (c, d4s). split; auto. apply in_flat_map. exists r. split; auto.
      apply in_flat_map. exists d4. split; auto. apply in_flat_map. exists d5. split; auto.
      unfold revl in Hl. destruct (jf_reverse J c d4) as [l|] eqn:E; [|destruct Hl].
      apply in_flat_map. exists (d3, f3). split; auto. rewrite E3. left; auto.
  Qed.

  (** facts about the jump-function update in [propagate] *)
  Lemma jfn_rev J d1 n d2 : jf_ok J ->
    match jf_reverse J n d2 with
    | Some l => match afind d1 l with Some g => g | None => allTop P end
    | None => allTop P
    end = jfn J d1 n d2.
  Proof.
    intros Hok. unfold jfn. rewrite <- (afind_revl _ _ _ _ Hok). unfold revl.
    destruct (jf_reverse J n d2); auto.
  Qed.

  Record upd (J J1 : jumpfns N D EF) d1 n d2 (f : EF) : Prop := {
    u_ok : jf_ok J1;
    u_other : forall d1' n' d2', (d1', n', d2') <> (d1, n, d2) ->
                jf_get J1 d1' n' d2' = jf_get J d1' n' d2';
    u_new : efle f (jfn J1 d1 n d2);
    u_old : efle (jfn J d1 n d2) (jfn J1 d1 n d2);
    u_nt : forall d1' n' d2' g, jf_get J1 d1' n' d2' = Some g -> efEqb P g (allTop P) = false
  }.

  Lemma upd_add J d1 n d2 f : jf_ok J ->
    (forall d1 n d2 f, jf_get J d1 n d2 = Some f -> efEqb P f (allTop P) = false) ->
    upd J (jf_add (isAllTop P) J d1 n d2 (combine P (jfn J d1 n d2) f)) d1 n d2 f.
  Proof.
    intros Hok Hnt. set (f' := combine P (jfn J d1 n d2) f).
    destruct (isAllTop P f') eqn:E.
    - assert (EJ : jf_add (isAllTop P) J d1 n d2 f' = J) by (unfold jf_add; rewrite E; auto).
      rewrite EJ. split; auto using efle_refl.
      intros x. eapply lle_trans; [apply (en_combine_r _ ES (jfn J d1 n d2))|].
      fold f'. apply efEqb_top_efle; auto.
    - split.
      + apply jf_ok_add; auto.
      + intros. rewrite jf_get_add by auto. destruct (eq_dec _ _); [congruence|auto].
      + unfold jfn at 1. rewrite jf_get_add by auto. destruct (eq_dec _ _); [|congruence].
        intros x. apply (en_combine_r _ ES).
      + unfold jfn at 2. rewrite jf_get_add by auto. destruct (eq_dec _ _); [|congruence].
        intros x. apply (en_combine_l _ ES).
      + intros d1' n' d2' g. rewrite jf_get_add by auto. destruct (eq_dec _ _); eauto.
        intros E2; injection E2; intros <-. exact E.
  Qed.

  Lemma upd_jfn J J1 d1 n d2 f : upd J J1 d1 n d2 f ->
    forall d1' n' d2', efle (jfn J d1' n' d2') (jfn J1 d1' n' d2').
  Proof.
    intros U d1' n' d2'. destruct (eq_dec (d1', n', d2') (d1, n, d2)) as [E|Hne].
    - injection E; intros -> -> ->. apply (u_old _ _ _ _ _ _ U).
    - unfold jfn. rewrite (u_other _ _ _ _ _ _ U) by auto. apply efle_refl.
  Qed.

  (** the state fields after processing, independent of the branch taken *)
  Lemma task_jf st d1 n d2 : st_jf (pathEdgeProcessingTask G P follow st d1 n d2) = st_jf st.
  Proof.
    unfold pathEdgeProcessingTask, processCall, processExit, processNormalFlow.
    destruct (isCallSite G n); auto.
    destruct (isExitInst G n), (getSuccsOf G n), follow; simpl; auto;
      destruct (exitInc _ _ _); auto.
  Qed.

  Lemma task_wl st d1 n d2 it :
    In it (st_wl st) -> In it (st_wl (pathEdgeProcessingTask G P follow st d1 n d2)).
  Proof.
    intros Hin. unfold pathEdgeProcessingTask, processCall, processExit, processNormalFlow.
    destruct (isCallSite G n); simpl; [apply push_In; auto|].
    destruct (isExitInst G n), (getSuccsOf G n); simpl; rewrite ?push_In; auto;
      destruct follow, (exitInc _ _ _); simpl; rewrite ?push_In; auto.
  Qed.

  Lemma exit_wl st d1 n d2 it :
    In it (st_wl st) -> In it (st_wl (processExit G P follow st d1 n d2)).
  Proof.
    intros Hin. unfold processExit.
    destruct follow, (exitInc _ _ _); simpl; rewrite ?push_In; auto.
  Qed.

  Lemma exit_fields st d1 n d2 (st' := processExit G P follow st d1 n d2) :
    st_jf st' = st_jf st /\ st_inc st' = st_inc st /\
    st_es st' = fold_left (fun E sp => addEndSummary E sp d1 n d2 (jumpFunction P (st_jf st) d1 n d2))
                  (getStartPointsOf G (getFunctionOf G n)) (st_es st) /\
    forall it, In it (returnPushes G P (st_jf st) (exitInc (st_inc st) d1 (getStartPointsOf G (getFunctionOf G n)))
                  (jumpFunction P (st_jf st) d1 n d2) d1 n d2) -> In it (st_wl st').
  Proof.
    subst st'. unfold processExit.
    destruct follow; [destruct (exitInc _ _ _)|]; simpl; (split; [|split; [|split]]); auto; intros;
      rewrite ?push_In; tauto.
  Qed.

  Lemma cov_cell st d1 n d2 f g : jf_get (st_jf st) d1 n d2 = Some g -> efle f g -> cov st (d1, n, d2, f).
  Proof. intros E Hle. left. unfold jfn. rewrite E. auto. Qed.

  Lemma cov_wl st it : In it (st_wl st) -> cov st it.
  Proof. destruct it as [[[d1 n] d2] f]. intros Hin. right. exists f. split; auto using efle_refl. Qed.

  Lemma Inv_process st st1 d1 n d2 f :
    Inv st -> upd (st_jf st) (st_jf st1) d1 n d2 f ->
    st_es st1 = st_es st -> st_inc st1 = st_inc st -> cov_le st st1 ->
    Inv (pathEdgeProcessingTask G P follow st1 d1 n d2).
  Proof.
    intros [A1 A2 A2' A3 A4 A5 A6 A7 A8 A9 A10] U EE EI HC.
    set (st2 := pathEdgeProcessingTask G P follow st1 d1 n d2).
    assert (EJ2 : st_jf st2 = st_jf st1) by apply task_jf.
    assert (HC2 : cov_le st st2).
    { intros it Hc. apply HC in Hc. revert it Hc. apply cov_grow.
      - intros. rewrite EJ2. apply efle_refl.
      - intros. apply cov_wl. apply task_wl; auto. }
    assert (HJ : forall d1' n' d2' g, jf_get (st_jf st2) d1' n' d2' = Some g ->
              (d1', n', d2') <> (d1, n, d2) -> jf_get (st_jf st) d1' n' d2' = Some g).
    { intros. rewrite EJ2 in H2. rewrite (u_other _ _ _ _ _ _ U) in H2; auto. }
    assert (HK : forall g, jf_get (st_jf st2) d1 n d2 = Some g -> jumpFunction P (st_jf st1) d1 n d2 = g).
    { intros g Hg. rewrite EJ2 in Hg. rewrite jumpFunction_jfn by apply (u_ok _ _ _ _ _ _ U).
      unfold jfn. rewrite Hg. auto. }
    assert (Hok2 : jf_ok (st_jf st2)) by (rewrite EJ2; apply (u_ok _ _ _ _ _ _ U)).
    assert (Hnt2 : forall d1' n' d2' g, jf_get (st_jf st2) d1' n' d2' = Some g -> efEqb P g (allTop P) = false).
    { rewrite EJ2. apply (u_nt _ _ _ _ _ _ U). }
    destruct (isCallSite G n) eqn:Ecall.
    - (* call *)
      assert (Est2 : st2 = processCall G P st1 d1 n d2).
      { unfold st2, pathEdgeProcessingTask. rewrite Ecall. auto. }
      assert (Ees : st_es st2 = st_es st) by (rewrite Est2; simpl; auto).
      assert (Ene : forall d1' e d2', isCallSite G e = false -> (d1', e, d2') <> (d1, n, d2)) by congruence.
      split; auto.
      + rewrite Est2. simpl. apply inc_wf_fold. rewrite EI. auto.
      + rewrite Ees. auto.
      + intros sp d1' e d2' g He1 He2 Hsp Hg. rewrite Ees. apply A4; auto.
      + intros d1' n' d2' g Hg Hn it Hit. apply HC2. eapply A5; eauto.
      + intros d1' n' d2' g Hg Hn it Hit.
        destruct (eq_dec (d1', n', d2') (d1, n, d2)) as [E|Hne].
        * injection E; intros -> -> ->. apply cov_wl. rewrite Est2. simpl. apply push_In. left.
          rewrite (HK g Hg). eapply callPushes0_sub; eauto.
        * apply HC2. eapply A6; eauto.
      + intros d1' n' d2' g Hg Hn sp d3 Hin. rewrite Est2. simpl. apply registered_fold.
        destruct (eq_dec (d1', n', d2') (d1, n, d2)) as [E|Hne].
        * injection E; intros -> -> ->. left. auto.
        * right. rewrite EI. eapply A7; eauto.
      + intros g sp sp' d c d2' Hsp Hsp'. rewrite Est2. simpl. rewrite !registered_fold, EI.
        intros [[Hin [-> ->]]|Hr]; [left|right; eapply A8; eauto].
        split; auto. apply callIncoming_In in Hin. destruct Hin as (callee & Hc & Hs & Hsp2 & Hd).
        apply callIncoming_In. exists callee. repeat split; auto.
        rewrite <- (wf_start_fun _ WF _ _ Hsp2), (wf_start_fun _ WF _ _ Hsp). auto.
      + intros d1' c d2' g callee sp d3 e d4 fs r d5 Hg Hc Hcal Hsum Hsp Hd3 Hfs He1 He2 He3 Hr Hd5.
        destruct (eq_dec (d1', c, d2') (d1, n, d2)) as [E|Hne].
        * injection E; intros -> -> ->. apply cov_wl. rewrite Est2. simpl. apply push_In. left.
          rewrite (HK g Hg). apply callPushes_In. left. exists callee. split; auto. rewrite Hsum.
          apply calleePushes_In. exists sp, d3. repeat split; auto. right.
          apply endSummaryPushes_In. exists e, d4, fs, r, d5. repeat split; auto.
          rewrite EE. apply A4; auto. rewrite He3; auto.
        * apply HC2. eapply A9; eauto.
    - (* normal / exit *)
      assert (Ene : forall d1' e d2', isCallSite G e = true -> (d1', e, d2') <> (d1, n, d2)) by congruence.
      assert (Einc : st_inc st2 = st_inc st).
      { unfold st2, pathEdgeProcessingTask. rewrite Ecall. rewrite <- EI.
        destruct (getSuccsOf G n); simpl; destruct (isExitInst G n); auto; apply exit_fields. }
      assert (Ees : st_es st2 = if isExitInst G n then st_es (processExit G P follow st1 d1 n d2) else st_es st).
      { unfold st2, pathEdgeProcessingTask. rewrite Ecall. rewrite <- EE.
        destruct (getSuccsOf G n); simpl; destruct (isExitInst G n); auto. }
      assert (Hexit : isExitInst G n = true -> forall it, In it (st_wl (processExit G P follow st1 d1 n d2)) -> In it (st_wl st2)).
      { intros Hx it Hin. unfold st2, pathEdgeProcessingTask. rewrite Ecall, Hx.
        destruct (getSuccsOf G n); simpl; auto. apply push_In; auto. }
      assert (Hnorm : forall it, In it (normalPushes G P (jumpFunction P (st_jf st1) d1 n d2) d1 n d2) -> In it (st_wl st2)).
      { intros it Hin. unfold st2, pathEdgeProcessingTask. rewrite Ecall.
        pose proof Hin as Hin'. apply normalPushes_In in Hin'. destruct Hin' as (n' & d3 & Hn' & _ & _).
        destruct (getSuccsOf G n) eqn:Es; [destruct Hn'|]. simpl. apply push_In. left.
        destruct (isExitInst G n); auto.
        rewrite (proj1 (exit_fields st1 d1 n d2)). auto. }
      destruct (exit_fields st1 d1 n d2) as (_ & _ & Xes & Xret).
      assert (HE1 : t_wf (st_es st1) /\ (forall sp d, t_wf (t_get [] (st_es st1) sp d))) by (rewrite EE; auto).
      destruct (endSummary_fold (getStartPointsOf G (getFunctionOf G n)) d1 n d2
                  (jumpFunction P (st_jf st1) d1 n d2) (st_es st1) HE1) as [Xwf Xin].
      split; auto.
      + rewrite Einc; auto.
      + rewrite Ees. destruct (isExitInst G n); auto. rewrite Xes. auto.
      + intros sp d1' e d2' g He1 He2 Hsp Hg. rewrite Ees.
        destruct (eq_dec (d1', e, d2') (d1, n, d2)) as [E|Hne].
        * injection E; intros -> -> ->. rewrite He2, Xes, Xin.
          destruct (eq_dec _ _); [|congruence]. left. split; auto. symmetry; apply HK; auto.
        * destruct (isExitInst G n); [|apply A4; auto].
          rewrite Xes, Xin. destruct (eq_dec _ _); [congruence|]. rewrite EE. apply A4; auto.
      + intros d1' n' d2' g Hg Hn it Hit.
        destruct (eq_dec (d1', n', d2') (d1, n, d2)) as [E|Hne].
        * injection E; intros -> -> ->. apply cov_wl. apply Hnorm. rewrite (HK g Hg). auto.
        * apply HC2. eapply A5; eauto.
      + intros d1' n' d2' g Hg Hn it Hit. apply HC2. eapply A6; eauto.
      + intros d1' n' d2' g Hg Hn sp d3 Hin. rewrite Einc. eapply A7; eauto.
      + rewrite Einc. auto.
      + intros d1' c d2' g callee sp d3 e d4 fs r d5 Hg Hc Hcal Hsum Hsp Hd3 Hfs He1 He2 He3 Hr Hd5.
        destruct (eq_dec (d3, e, d4) (d1, n, d2)) as [E|Hne].
        * injection E; intros -> -> ->. apply cov_wl. apply Hexit; auto. apply Xret.
          assert (Hreg : registered (st_inc st1) sp d1 c d2').
          { rewrite EI. eapply A7; eauto. apply callIncoming_In. exists callee. auto. }
          subst callee.
          destruct (exitInc_covers (st_inc st1) d1 (getFunctionOf G n) sp c d2') as [ds [Hin Hds]]; auto.
          { rewrite EI; auto. }
          { rewrite EI; intros; eapply A8; eauto. }
          apply returnPushes_In. exists c, ds, r, d2', d5, d1', g.
          repeat split; auto.
          -- apply (proj2 (In_revl (isAllTop P) _ _ _ _ _ (u_ok _ _ _ _ _ _ U))). rewrite <- EJ2. auto.
          -- eapply Hnt2; eauto.
          -- rewrite (HK fs Hfs). auto.
        * apply HC2. eapply A9; eauto.
  Qed.

  Lemma Inv_pstep st st' : Inv st -> pstep G P follow st st' -> Inv st'.
  Proof.
    intros HI Hs. destruct Hs as [st l1 l2 d1 n d2 f st' Ewl EJ EE EI EU EW].
    set (st0 := mkState (st_jf st) (st_es st) (st_inc st) (l1 ++ l2) (st_unb st)) in *.
    assert (HI2 : Inv (propagate G P follow st0 d1 n d2 f)).
    { unfold propagate. change (st_jf st0) with (st_jf st).
      rewrite (jfn_rev (st_jf st) d1 n d2 (i_jf _ HI)).
      set (f' := combine P (jfn (st_jf st) d1 n d2) f).
      assert (Hwl : forall a b b2 g, In (a, b, b2, g) (st_wl st) -> (a, b, b2, g) = (d1, n, d2, f) \/ In (a, b, b2, g) (l1 ++ l2)).
      { intros a b b2 g. rewrite Ewl, !in_app_iff. simpl. intuition. }
      destruct (efEqb P f' (jfn (st_jf st) d1 n d2)) eqn:Eeq.
      - apply Inv_cov with (st := st); auto. apply cov_grow.
        + intros; apply efle_refl.
        + intros a b b2 g Hin. apply Hwl in Hin. destruct Hin as [E|Hin]; [|apply cov_wl; auto].
          injection E; intros -> -> -> ->. left. intros x. simpl.
          rewrite <- (en_eqb _ ES _ _ Eeq). apply (en_combine_r _ ES).
      - pose proof (upd_add (st_jf st) d1 n d2 f (i_jf _ HI) (i_nt _ HI)) as U. fold f' in U.
        eapply Inv_process; [exact HI|exact U|reflexivity|reflexivity|].
        apply cov_grow.
        + simpl. eapply upd_jfn; eauto.
        + intros a b b2 g Hin. apply Hwl in Hin. destruct Hin as [E|Hin]; [|apply cov_wl; auto].
          injection E; intros -> -> -> ->. left. simpl. apply (u_new _ _ _ _ _ _ U). }
    apply Inv_cov with (st := propagate G P follow st0 d1 n d2 f); auto.
    apply cov_grow.
    - intros. rewrite EJ. apply efle_refl.
    - intros. apply cov_wl. eapply Permutation_in; [symmetry; eauto|auto].
  Qed.

  Lemma Inv_psteps st st' : Inv st -> psteps G P follow st st' -> Inv st'.
  Proof. intros HI Hs. induction Hs; auto. eapply Inv_pstep; [apply IHHs; auto|eauto]. Qed.

  (** ** the completed jump functions over-approximate all valid runs *)

  Lemma cov_done st d1 n d2 f : st_wl st = [] -> cov st (d1, n, d2, f) -> efle f (jfn (st_jf st) d1 n d2).
  Proof. intros Hw [Hc|[g [Hin _]]]; auto. rewrite Hw in Hin. destruct Hin. Qed.

  Lemma efle_extend J f d1 n d2 x v ek :
    efle (extend P f ek) (jfn J d1 n d2) -> nontop P v -> lle v (ap f x) ->
    lle (ap ek v) (ap (jfn J d1 n d2) x).
  Proof.
    intros Hc Hn Hv. eapply lle_trans; [|apply Hc].
    eapply lle_trans; [|apply (en_extend _ ES); eapply nontop_le; eauto]. apply (en_mono _ ES); auto.
  Qed.

  (** an entry (start point, fact) the solver has been asked to analyse *)
  Definition active (J : jumpfns N D EF) sp d1 : Prop := efle (edgeIdentity P) (jfn J d1 sp d1).

  (** a configuration described through the jump functions of the pending
      procedures; [Base] describes the entry of the outermost procedure *)
  Inductive cfgOK (J : jumpfns N D EF) (Base : N -> D -> L -> Prop) : list (@frame N F) -> N -> D -> L -> Prop :=
  | cfg_base n d v sp d1 v1 :
      Base sp d1 v1 -> In sp (getStartPointsOf G (getFunctionOf G n)) -> nontop P v1 ->
      lle v (ap (jfn J d1 n d) v1) -> cfgOK J Base [] n d v
  | cfg_frame S c callee d2 v2 sp d1 v1 n d v :
      cfgOK J Base S c d2 v2 -> nontop P v2 -> isCallSite G c = true ->
      In callee (getCalleesOfCallAt G c) -> sumFF P c callee = None ->
      In sp (getStartPointsOf G callee) -> In d1 (callFF P c callee d2) ->
      v1 = ap (callEF P c d2 callee d1) v2 -> nontop P v1 ->
      getFunctionOf G n = callee -> lle v (ap (jfn J d1 n d) v1) ->
      cfgOK J Base ((c, callee) :: S) n d v.

  Lemma jfn_some J d1 n d2 v x : nontop P v -> lle v (ap (jfn J d1 n d2) x) ->
    exists f, jf_get J d1 n d2 = Some f /\ lle v (ap f x).
  Proof.
    unfold jfn. destruct (jf_get J d1 n d2) as [f|]; [eauto|].
    intros Hv Hle. exfalso. apply Hv. apply lle_to_top. rewrite <- (en_top _ ES x). auto.
  Qed.

  (** a step inside one procedure *)
  Lemma cfg_intra J Base S n d v n' d' ek :
    cfgOK J Base S n d v -> nontop P v -> getFunctionOf G n' = getFunctionOf G n ->
    (forall d1 f, jf_get J d1 n d = Some f -> efle (extend P f ek) (jfn J d1 n' d')) ->
    cfgOK J Base S n' d' (ap ek v).
  Proof.
    intros Hc Hv Hf Hstep. destruct Hc.
    - match goal with Hl : lle v _ |- _ => destruct (jfn_some _ _ _ _ _ _ Hv Hl) as [f [Ef Hle]] end.
      eapply cfg_base; eauto; [rewrite Hf; auto|].
      eapply efle_extend; eauto.
    - match goal with Hl : lle v _ |- _ => destruct (jfn_some _ _ _ _ _ _ Hv Hl) as [f [Ef Hle]] end.
      eapply cfg_frame; eauto; [congruence|].
      eapply efle_extend; eauto.
  Qed.

  (** the caller's part after a return *)
  Lemma cfg_return J Base S c d2 v2 r d5 v' ek :
    cfgOK J Base S c d2 v2 -> nontop P v2 -> getFunctionOf G r = getFunctionOf G c ->
    (forall d1 f, jf_get J d1 c d2 = Some f -> efle (extend P f ek) (jfn J d1 r d5)) ->
    lle v' (ap ek v2) ->
    cfgOK J Base S r d5 v'.
  Proof.
    intros Hc Hv Hf Hstep Hle'.
    assert (Hc' : cfgOK J Base S r d5 (ap ek v2)) by (eapply cfg_intra; eauto).
    destruct Hc'; [eapply cfg_base|eapply cfg_frame]; eauto; eapply lle_trans; eauto.
  Qed.

  Lemma cfg_step st Base (HI : Inv st) (Hw : st_wl st = []) S n d v S' n' d' v' :
    cfgOK (st_jf st) Base S n d v -> nontop P v -> estep G P (S, n, d, v) (S', n', d', v') ->
    nontop P v' -> cfgOK (st_jf st) Base S' n' d' v'.
  Proof.
    intros Hc Hv Hs Hv'. inversion Hs; subst; clear Hs.
    - eapply cfg_intra; eauto; [apply (wf_succ_fun _ WF); auto|].
      intros d1 f Ef. apply cov_done; auto. eapply (i_norm _ HI); eauto.
      apply normalPushes_In; eauto 6.
    - eapply cfg_intra; eauto; [apply (wf_ret_fun _ WF); auto|].
      intros d1 f Ef. apply cov_done; auto. eapply (i_call _ HI); eauto.
      apply in_app_iff. right. apply ctrPushes_In; eauto 6.
    - eapply cfg_intra; eauto; [apply (wf_ret_fun _ WF); auto|].
      intros d1 f Ef. apply cov_done; auto. eapply (i_call _ HI); eauto.
      apply in_app_iff. left. apply in_flat_map. exists callee. split; auto.
      match goal with E : sumFF P n callee = Some _ |- _ => rewrite E end.
      apply summaryPushes_In; eauto 6.
    - eapply cfg_frame with (v2 := v); eauto.
      + apply (wf_start_fun _ WF); auto.
      + set (v1 := ap _ v).
        assert (Hcell : exists d1 f, jf_get (st_jf st) d1 n d = Some f).
        { inversion Hc; subst; [edestruct jfn_some as [f [Ef _]]; [exact Hv| |]; eauto..]. }
        destruct Hcell as [d1 [f Ef]].
        assert (Hid : efle (edgeIdentity P) (jfn (st_jf st) d' n' d')).
        { apply cov_done; auto. eapply (i_call _ HI); eauto.
          apply in_app_iff. left. apply in_flat_map. exists callee. split; auto.
          match goal with E : sumFF P n callee = None |- _ => rewrite E end.
          apply in_flat_map. exists n'. split; auto. apply in_map_iff. eauto. }
        specialize (Hid v1). rewrite (en_id _ ES) in Hid. auto.
    - inversion Hc; subst.
      match goal with Hle : lle v _ |- _ =>
        destruct (jfn_some _ _ _ _ _ _ Hv Hle) as [fs [Efs Hle2]] end.
      eapply cfg_return with (ek := extend P (extend P (callEF P c d2 (getFunctionOf G n) d1) fs)
                                     (retEF P c (getFunctionOf G n) n d n' d')); eauto.
      + apply (wf_ret_fun _ WF); auto.
      + intros d0 f Ef. apply cov_done; auto.
        eapply (i_ret _ HI) with (callee := getFunctionOf G n) (sp := sp); eauto.
      + match goal with Hv1 : nontop P (ap (callEF P c d2 _ d1) _) |- _ =>
          pose proof (en_extend _ ES _ fs _ Hv1) as Hx end.
        eapply lle_trans; [|apply (en_extend _ ES); eapply nontop_le; [exact Hv|]].
        * apply (en_mono _ ES); auto. eapply lle_trans; [exact Hle2|exact Hx].
        * eapply lle_trans; [exact Hle2|exact Hx].
  Qed.

  Lemma cfg_reach st Base (HI : Inv st) (Hw : st_wl st = []) S1 :
    (forall n facts d v, In (n, facts) S1 -> In (d, v) facts -> nontop P v ->
        Base n d v /\ In n (getStartPointsOf G (getFunctionOf G n)) /\ active (st_jf st) n d) ->
    forall cf, reach G P (nontop P) S1 cf ->
    let '(stk, n, d, v) := cf in nontop P v /\ cfgOK (st_jf st) Base stk n d v.
  Proof.
    intros Hb c Hr. induction Hr as [n facts d v Hin Hf Hv|c S n d v Hr IH Hs Hv].
    - split; auto. destruct (Hb _ _ _ _ Hin Hf Hv) as [HB [Hsp Ha]].
      eapply cfg_base; eauto. specialize (Ha v). rewrite (en_id _ ES) in Ha. auto.
    - destruct c as [[[S1' n1] d1] v1]. destruct IH as [Hv1 Hc]. split; auto.
      eapply cfg_step; eauto.
  Qed.

  (** Jump functions over-approximate every same-level run. *)
  Lemma jump_functions_sound st sp d1 x n d2 v :
    Inv st -> st_wl st = [] -> In sp (getStartPointsOf G (getFunctionOf G sp)) ->
    active (st_jf st) sp d1 ->
    reach G P (nontop P) [(sp, [(d1, x)])] ([], n, d2, v) ->
    lle v (ap (jfn (st_jf st) d1 n d2) x).
  Proof.
    intros HI Hw Hsp Ha Hr.
    pose proof (cfg_reach st (fun sp' d' v' => sp' = sp /\ d' = d1 /\ v' = x) HI Hw [(sp, [(d1, x)])]) as HC.
    assert (Hb : forall n facts d v, In (n, facts) [(sp, [(d1, x)])] -> In (d, v) facts -> nontop P v ->
       (n = sp /\ d = d1 /\ v = x) /\ In n (getStartPointsOf G (getFunctionOf G n)) /\ active (st_jf st) n d).
    { intros n0 facts d0 v0 [E|[]] Hf Hv. injection E; intros; subst. destruct Hf as [E2|[]].
      injection E2; intros; subst. auto. }
    destruct (HC Hb _ Hr) as [_ Hc]. inversion Hc; subst.
    match goal with HB : _ /\ _ |- _ => destruct HB as [-> [-> ->]] end. auto.
  Qed.
End P1.
