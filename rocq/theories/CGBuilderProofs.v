From Coq Require Import List Bool Arith Lia Permutation.
From Verif Require Import Assoc CallGraphModel CallGraphSpec CallGraphProofs CGBuilderModel CGBuilderSpec.
Import ListNotations.

Lemma room_of s es fs ns U f : Inv s es fs ns -> incl fs U -> In f U -> length (nodup Nat.eq_dec U) <= funCap s -> room f s.
Proof.
  intros I H1 Hf C. unfold room. destruct (in_dec Nat.eq_dec f (getAllVertexFunctions s)); [now left|]. right.
  assert (Q : length (f :: akeys (callersOf s)) <= length (nodup Nat.eq_dec U)).
  { apply incl_len; [constructor; [assumption|apply (iNDf _ _ _ _ I)]|]. intros x [<- |Hx]; [assumption|]. apply H1. now apply (iF _ _ _ _ I). }
  cbn in Q. unfold akeys in Q. rewrite map_length in Q. unfold size. lia.
Qed.

Lemma Inv_fs s es fs fs' ns : Inv s es fs ns -> (forall f, In f fs <-> In f fs') -> Inv s es fs' ns.
Proof. intros [P1 P2 P3 P4 P5 P6 P7 P8 P9 P10] H. constructor; auto. intro f. now rewrite P8. Qed.
Lemma Inv_ns s es fs ns ns' : Inv s es fs ns -> (forall f, In f ns <-> In f ns') -> Inv s es fs ns'.
Proof. intros [P1 P2 P3 P4 P5 P6 P7 P8 P9 P10] H. constructor; auto. intro f. now rewrite P9. Qed.

Lemma addTargets_inv a n i U : forall ts s w es fs ns, Inv s es fs ns -> afind n (calleesAt s) = Some i -> incl fs U -> incl ts U ->
  length (nodup Nat.eq_dec U) <= funCap s ->
  exists s', addTargets a n i ts s w = Some (s', rev ts ++ w) /\ Inv s' (es ++ map (fun t => (n, t)) ts) (rev ts ++ fs) ns
    /\ funCap s' = funCap s /\ calleesAt s' = calleesAt s.
Proof.
  unfold addTargets. induction ts as [|t ts IH]; intros s w es fs ns I A HF HT C.
  - exists s. cbn. rewrite app_nil_r. auto.
  - cbn [fold_left addTarget]. unfold addCallEdgeI.
    destruct (addFun_inv a _ _ _ _ t I (room_of _ _ _ _ U t I HF (HT t (or_introl eq_refl)) C)) as [p [s2 [E [I2 [B [Ca [_ [Cp _]]]]]]]]. rewrite E.
    rewrite <- Ca in A. destruct (addEdge_inv _ _ _ _ _ _ _ _ I2 A B) as [s3 [E3 [I3 [Ca3 [_ [Cp3 _]]]]]]. rewrite E3.
    destruct (IH s3 (t :: w) _ _ _ I3) as [s' [E' [I' [Cp' Ca']]]].
    + rewrite Ca3. exact A.
    + intros x [<- |Hx]; [apply HT; now left|auto].
    + intros x Hx. apply HT. now right.
    + lia.
    + exists s'. cbn [rev map]. rewrite <- !app_assoc. cbn [app]. split; [exact E'|]. split; [|split; congruence].
      replace (es ++ (n, t) :: map (fun t0 => (n, t0)) ts) with ((es ++ [(n, t)]) ++ map (fun t0 => (n, t0)) ts) by (rewrite <- app_assoc; reflexivity).
      exact I'.
Qed.

Lemma calleesIn_targets es n ts m : calleesIn (es ++ map (fun t => (n, t)) ts) m = calleesIn es m ++ (if n =? m then ts else []).
Proof.
  unfold calleesIn. rewrite filter_app, map_app. f_equal. induction ts as [|t ts IH]; [now destruct (n =? m)|]. cbn.
  destruct (n =? m); cbn; [now rewrite IH|assumption].
Qed.
Lemma NoDup_app2 (l m : list nat) : NoDup l -> NoDup m -> (forall x, In x l -> ~ In x m) -> NoDup (l ++ m).
Proof.
  intros ND NN. induction ND as [|x l Hx ND IH]; intro Dj; [exact NN|]. cbn. constructor.
  - rewrite in_app_iff. intros [H|H]; [contradiction|]. apply (Dj x); [now left|assumption].
  - apply IH. intros y Hy. apply Dj. now right.
Qed.
Lemma In_callees es n t : In t (calleesIn es n) <-> In (n, t) es.
Proof.
  unfold calleesIn. rewrite in_map_iff. split.
  - intros [[x y] [<- H]]. apply filter_In in H. destruct H as [H Q]. cbn in Q. apply Nat.eqb_eq in Q. subst x. exact H.
  - intro H. exists (n, t). split; [reflexivity|]. apply filter_In. split; [assumption|]. cbn. apply Nat.eqb_refl.
Qed.

Section P.
  Context {R : Type}.
  Variable asserts : bool.
  Variable isDecl : nat -> bool.
  Variable instrs : nat -> list instr.
  Variable resolve : R -> nat -> list nat.
  Variable handle : R -> nat -> list nat -> R.
  Variables pre post other : R -> nat -> R.
  Variable order : list nat -> list nat.
  Hypothesis Hord : forall l, Permutation (order l) l.
  Variable U : list nat.
  Hypothesis WF : wfModule instrs resolve U.
  Variable entry : list nat.
  Hypothesis HentU : incl entry U.
  Variable le : R -> R -> Prop.
  Let Mono := monotone resolve pre post other handle le.
  Let Quiet := quietCalls resolve pre post.
  Let Stl := stateless resolve.
  Notation bst := (@bst R).
  Let cardU := length (nodup Nat.eq_dec U).

  Inductive greach (es : list (nat * nat)) : nat -> Prop :=
  | gr_entry f : In f entry -> greach es f
  | gr_call g n c t : greach es g -> isDecl g = false -> In (CallI n c) (instrs g) -> In (n, t) es -> greach es t.
  Lemma greach_mono es es' f : incl es es' -> greach es f -> greach es' f.
  Proof. intros H. induction 1; [now apply gr_entry|]. eapply gr_call; eauto. Qed.

  Definition siteOk (st : bst) (es : list (nat * nat)) (n : nat) (c : callee) : Prop :=
    match c with
    | Static t => calleesIn es n = [t]
    | Asm => calleesIn es n = []
    | Indirect => exists k, afind n (indirect st) = Some k /\ k <= cardU /\ NoDup (calleesIn es n)
        /\ (Mono -> incl (calleesIn es n) (resolve (res st) n) /\ length (calleesIn es n) = k)
        /\ (Stl -> incl (resolve (res st) n) (calleesIn es n))
    end.

  Record BI (st : bst) (done : list (nat * callee)) (es : list (nat * nat)) (fs ns : list nat) : Prop := {
    b_inv : Inv (bcg st) es fs ns;
    b_cap : cardU <= funCap (bcg st);
    b_fsU : incl fs U;
    b_visND : NoDup (visited st);
    b_vis : forall f, In f (visited st) -> In f U /\ isDecl f = false /\ In f fs;
    b_wlU : incl (wl st) U;
    b_ND : NoDup (map fst done);
    b_ns : forall n, In n ns <-> In n (map fst done);
    b_ind : forall n, In n (akeys (indirect st)) <-> In (n, Indirect) done;
    b_indND : NoDup (akeys (indirect st));
    b_site : forall n c, In (n, c) done -> siteOk st es n c;
    b_tgt : forall n t, In (n, t) es -> isDecl t = true \/ In t (visited st) \/ In t (wl st);
    b_entry : forall f, In f entry -> isDecl f = true \/ In f (visited st) \/ In f (wl st);
    b_fs : forall f, In f fs -> In f (visited st) \/ exists n, In (n, f) es;
    b_reach : forall f, In f (visited st) \/ In f (wl st) -> greach es f;
    b_done : forall n c, In (n, c) done -> exists f, In f (visited st) /\ In (CallI n c) (instrs f) }.

  Lemma noEdge st done es fs ns n : BI st done es fs ns -> ~ In n (map fst done) -> calleesIn es n = [].
  Proof.
    intros B H. apply calleesIn_none. intros f Hf. apply H. apply (b_ns _ _ _ _ _ B). apply (iN _ _ _ _ (b_inv _ _ _ _ _ B)).
    apply (proj1 (iE _ _ _ _ (b_inv _ _ _ _ _ B) _ _ Hf)).
  Qed.

  Lemma resolve_card r n : length (resolve r n) <= cardU.
  Proof. destruct (wf_resolve _ _ _ WF r n) as [H1 H2]. now apply incl_len. Qed.

  Lemma siteOk_grow st st' es es' n c : siteOk st es n c -> calleesIn es' n = calleesIn es n ->
    (c = Indirect -> afind n (indirect st') = afind n (indirect st)) -> (Mono -> le (res st) (res st')) -> siteOk st' es' n c.
  Proof.
    intros S E A L. destruct c as [t| |]; cbn [siteOk] in *; try congruence.
    destruct S as [k [K [KU [ND [M1 M2]]]]]. exists k. rewrite (A eq_refl), E. split; [assumption|]. split; [assumption|]. split; [assumption|]. split.
    - intro M. destruct (M1 M) as [I1 I2]. split; [|assumption]. intros x Hx. apply (m_resolve _ _ _ _ _ _ M _ _ n (L M)). auto.
    - intro S. rewrite (S (res st') (res st) n). auto.
  Qed.

  (** ** one instruction *)
  Lemma processInstr_ok fp st done es fs ns f i : BI st done es fs ns -> In f (visited st) -> In i (instrs f) ->
    (forall n c, i = CallI n c -> ~ In n (map fst done)) ->
    exists b st' es' fs' ns', processInstr asserts resolve handle pre post other (Some (fp, st)) i = Some (fp && b, st')
      /\ BI st' (done ++ match i with CallI n c => [(n, c)] | OtherI _ => [] end) es' fs' ns'
      /\ visited st' = visited st /\ incl es es'.
  Proof.
    intros B Hf Hi Fresh. destruct i as [i|n c]; cbn [processInstr].
    - exists true. rewrite andb_true_r, app_nil_r. eexists; exists es, fs, ns. split; [reflexivity|]. split; [|split; [reflexivity|apply incl_refl]].
      pose proof B as B0. destruct B. constructor; cbn [bcg visited wl indirect res]; auto.
      intros m c Hm. eapply siteOk_grow; [apply (b_site0 m c Hm)|reflexivity|reflexivity|]. intro M. apply (m_other _ _ _ _ _ _ M).
    - pose proof (addInst_inv _ _ _ _ n (b_inv _ _ _ _ _ B)) as Q.
      destruct (addInstructionVertex n (bcg st)) as [v s1] eqn:EA. destruct Q as [I1 [A1 [Ca1 [_ [Cp1 [_ [_ _]]]]]]].
      assert (Fr : ~ In n (map fst done)) by (eapply Fresh; reflexivity).
      set (r1 := pre (res st) n).
      destruct (fillPossibleTargets resolve r1 n c (indirect st)) as [[ts b] ind] eqn:EF.
      assert (HT : incl ts U).
      { destruct c as [t| |]; cbn in EF; injection EF as <- <- <-.
        - intros x [<- |[]]. apply (wf_static _ _ _ WF f n). apply (b_vis _ _ _ _ _ B f Hf). exact Hi.
        - intros x [].
        - apply (wf_resolve _ _ _ WF). }
      destruct (addTargets_inv asserts n v U ts s1 (wl st) _ _ _ I1 A1 (b_fsU _ _ _ _ _ B) HT) as [s2 [E2 [I2 [Cp2 Ca2]]]].
      { rewrite Cp1. apply (b_cap _ _ _ _ _ B). }
      rewrite E2. exists b. eexists; exists (es ++ map (fun t => (n, t)) ts), (rev ts ++ fs), (n :: ns).
      split; [reflexivity|]. split; [|split; [reflexivity|apply incl_appl, incl_refl]].
      pose proof (noEdge _ _ _ _ _ _ B Fr) as NE.
      assert (Hind : forall m, In m (akeys ind) <-> In m (akeys (indirect st)) \/ (m = n /\ c = Indirect)).
      { intro m. destruct c as [t| |]; cbn in EF; injection EF as <- <- <-; try (intuition congruence). rewrite In_akeys_aset. intuition. }
      assert (Hfind : forall m, m <> n -> afind m ind = afind m (indirect st)).
      { intros m Nm. destruct c as [t| |]; cbn in EF; injection EF as <- <- <-; auto. now rewrite afind_aset_neq. }
      pose proof B as B0. destruct B. constructor; cbn [bcg visited wl indirect res]; auto.
      + rewrite Cp2, Cp1. assumption.
      + intros x Hx. apply in_app_iff in Hx. destruct Hx as [Hx|Hx]; [apply HT; now apply in_rev|auto].
      + intros g Hg. destruct (b_vis0 g Hg) as [P1 [P2 P3]]. split; [assumption|]. split; [assumption|]. apply in_app_iff. now right.
      + intros x Hx. apply in_app_iff in Hx. destruct Hx as [Hx|Hx]; [apply HT; now apply in_rev|auto].
      + rewrite map_app. cbn. now apply NoDup_app_single.
      + intro m. rewrite map_app, in_app_iff. cbn. rewrite b_ns0. intuition.
      + intro m. rewrite Hind, b_ind0, in_app_iff. cbn. intuition congruence.
      + destruct c as [t| |]; cbn in EF; injection EF as <- <- <-; auto. now apply NoDup_aset.
      + intros m c' Hm. apply in_app_iff in Hm. destruct Hm as [Hm|[Hm|[]]].
        * assert (Nm : m <> n) by (intros ->; apply Fr; apply (in_map fst) in Hm; exact Hm).
          eapply siteOk_grow; [apply (b_site0 m c' Hm)| | |].
          -- rewrite calleesIn_targets. apply Nat.eqb_neq in Nm. rewrite Nat.eqb_sym in Nm. now rewrite Nm, app_nil_r.
          -- intros _. cbn. now apply Hfind.
          -- intro M. cbn. pose proof (m_trans _ _ _ _ _ _ M) as T. eapply T; [apply (m_pre _ _ _ _ _ _ M (res st) n)|].
             eapply T; [apply (m_handle _ _ _ _ _ _ M _ n ts)|apply (m_post _ _ _ _ _ _ M)].
        * injection Hm as <- <-. unfold siteOk. rewrite calleesIn_targets, NE, Nat.eqb_refl. cbn [app indirect res].
          destruct c as [t| |]; cbn in EF; injection EF as <- <- <-; [reflexivity|reflexivity|].
          exists (length (resolve r1 n)). rewrite afind_aset_eq. split; [reflexivity|]. split; [apply resolve_card|].
          split; [apply (wf_resolve _ _ _ WF)|]. split.
          -- intro M. split; [|reflexivity]. apply (m_resolve _ _ _ _ _ _ M). pose proof (m_trans _ _ _ _ _ _ M) as T.
             eapply T; [apply (m_handle _ _ _ _ _ _ M _ n (resolve r1 n))|apply (m_post _ _ _ _ _ _ M)].
          -- intro S. rewrite (S _ r1 n). apply incl_refl.
      + intros m t Hm. apply in_app_iff in Hm. destruct Hm as [Hm|Hm].
        * destruct (b_tgt0 m t Hm) as [H|[H|H]]; auto. right; right. apply in_app_iff. now right.
        * apply in_map_iff in Hm. destruct Hm as [x [E Hx]]. injection E as <- <-. right; right. apply in_app_iff. left. now apply in_rev in Hx.
      + intros g Hg. destruct (b_entry0 g Hg) as [H|[H|H]]; auto. right; right. apply in_app_iff. now right.
      + intros g Hg. apply in_app_iff in Hg. destruct Hg as [Hg|Hg].
        * right. exists n. apply in_app_iff. right. apply in_map_iff. exists g. split; [reflexivity|]. now apply in_rev.
        * destruct (b_fs0 g Hg) as [H|[m Hm]]; [now left|]. right. exists m. apply in_app_iff. now left.
      + intros g Hg.
        assert (Hold : In g (visited st) \/ In g (wl st) -> greach (es ++ map (fun t => (n, t)) ts) g).
        { intro H. eapply greach_mono; [|apply b_reach0; exact H]. apply incl_appl, incl_refl. }
        destruct Hg as [Hg|Hg]; [auto|]. apply in_app_iff in Hg. destruct Hg as [Hg|Hg]; [|auto].
        apply (gr_call _ f n c); [eapply greach_mono; [|apply b_reach0; left; exact Hf]; apply incl_appl, incl_refl|apply (b_vis0 f Hf)|exact Hi|].
        apply in_app_iff. right. apply in_map_iff. exists g. split; [reflexivity|]. now apply in_rev.
      + intros m c' Hm. apply in_app_iff in Hm. destruct Hm as [Hm|[Hm|[]]]; [now apply b_done0|]. injection Hm as <- <-. eauto.
  Qed.

  Definition callPart (is : list instr) : list (nat * callee) := flat_map (fun i => match i with CallI n c => [(n, c)] | OtherI _ => [] end) is.
  Lemma callPart_fst is : map fst (callPart is) = flat_map (fun i => match i with CallI n _ => [n] | OtherI _ => [] end) is.
  Proof. unfold callPart. induction is as [|[i|n c] is IH]; cbn; [reflexivity|exact IH|f_equal; exact IH]. Qed.
  Lemma In_callPart is n c : In (n, c) (callPart is) <-> In (CallI n c) is.
  Proof.
    unfold callPart. rewrite in_flat_map. split.
    - intros [[i|m d] [H Q]]; cbn in Q; [contradiction|]. destruct Q as [Q|[]]. injection Q as <- <-. exact H.
    - intro H. exists (CallI n c). split; [assumption|now left].
  Qed.

  Lemma processInstrs_ok f : forall is fp st done es fs ns, BI st done es fs ns -> In f (visited st) -> incl is (instrs f) ->
    NoDup (map fst done ++ map fst (callPart is)) ->
    exists b st' es' fs' ns', fold_left (processInstr asserts resolve handle pre post other) is (Some (fp, st)) = Some (fp && b, st')
      /\ BI st' (done ++ callPart is) es' fs' ns' /\ visited st' = visited st /\ incl es es'.
  Proof.
    induction is as [|i is IH]; intros fp st done es fs ns B Hf Hi ND.
    - exists true, st, es, fs, ns. cbn. rewrite andb_true_r, app_nil_r. split; [reflexivity|]. split; [assumption|]. split; [reflexivity|apply incl_refl].
    - cbn [fold_left]. destruct (processInstr_ok fp st done es fs ns f i B Hf (Hi i (or_introl eq_refl))) as [b [st1 [es1 [fs1 [ns1 [E [B1 [V1 I1]]]]]]]].
      { intros n c ->. cbn in ND. apply NoDup_remove_2 in ND. intro H. apply ND. apply in_app_iff. now left. }
      rewrite E. destruct (IH (fp && b) st1 _ es1 fs1 ns1 B1) as [b2 [st2 [es2 [fs2 [ns2 [E2 [B2 [V2 I2]]]]]]]].
      + now rewrite V1.
      + intros x Hx. apply Hi. now right.
      + rewrite map_app, <- app_assoc, <- map_app. exact ND.
      + exists (b && b2), st2, es2, fs2, ns2. rewrite E2, andb_assoc. split; [reflexivity|]. split.
        * rewrite <- app_assoc in B2. exact B2.
        * split; [congruence|eapply incl_tran; eauto].
  Qed.

  (** all calls of all visited functions are recorded *)
  Definition complete (st : bst) (done : list (nat * callee)) : Prop :=
    forall f n c, In f (visited st) -> In (CallI n c) (instrs f) -> In (n, c) done.

  Definition CI (st : bst) : Prop := exists done es fs ns, BI st done es fs ns /\ complete st done.

  Lemma sites_callPart f : sites instrs f = map fst (callPart (instrs f)).
  Proof. unfold sites. now rewrite callPart_fst. Qed.

  Lemma processFunction_ok f w st : CI st -> wl st = f :: w ->
    exists b st', processFunction asserts isDecl instrs resolve handle pre post other f (mkB (bcg st) (visited st) w (indirect st) (res st)) = Some (b, st')
      /\ CI st' /\ ((visited st' = visited st /\ wl st' = w /\ b = true /\ indirect st' = indirect st) \/ (visited st' = f :: visited st /\ ~ In f (visited st) /\ In f U)).
  Proof.
    intros [done [es [fs [ns [B C]]]]] EW. unfold processFunction. cbn [visited bcg wl indirect res].
    assert (HfU : In f U) by (apply (b_wlU _ _ _ _ _ B); rewrite EW; now left).
    destruct (isDecl f || mem f (visited st)) eqn:Q.
    - exists true. eexists. split; [reflexivity|]. split; [|left; repeat split].
      exists done, es, fs, ns. split; [|exact C]. apply orb_true_iff in Q.
      assert (Hskip : forall g, In g (wl st) -> isDecl g = true \/ In g (visited st) \/ In g w).
      { intros g Hg. rewrite EW in Hg. destruct Hg as [<- |Hg]; [|auto]. destruct Q as [Q|Q]; [auto|]. apply mem_true in Q. auto. }
      destruct B. constructor; cbn [bcg visited wl indirect res]; auto.
      + intros x Hx. apply b_wlU0. rewrite EW. now right.
      + intros n t Ht. destruct (b_tgt0 n t Ht) as [H|[H|H]]; auto.
      + intros g Hg. destruct (b_entry0 g Hg) as [H|[H|H]]; auto.
      + intros g [Hg|Hg]; apply b_reach0; [now left|right; rewrite EW; now right].
    - apply orb_false_iff in Q. destruct Q as [Q1 Q2]. apply mem_false in Q2.
      destruct (addFun_inv asserts _ _ _ _ f (b_inv _ _ _ _ _ B) (room_of _ _ _ _ U f (b_inv _ _ _ _ _ B) (b_fsU _ _ _ _ _ B) HfU (b_cap _ _ _ _ _ B)))
        as [p [s1 [E [I1 [_ [_ [_ [Cp _]]]]]]]]. rewrite E.
      set (st1 := mkB s1 (f :: visited st) w (indirect st) (res st)).
      assert (B1 : BI st1 done es (f :: fs) ns).
      { assert (Hg0 : greach es f) by (apply (b_reach _ _ _ _ _ B); right; rewrite EW; now left).
        assert (Hmv : forall g, In g (wl st) -> In g (f :: visited st) \/ In g w).
        { intros g Hg. rewrite EW in Hg. destruct Hg as [<- |Hg]; [left; now left|now right]. }
        destruct B. constructor; cbn [st1 bcg visited wl indirect res]; auto.
        - lia.
        - intros x [<- |Hx]; auto.
        - now constructor.
        - intros g [<- |Hg]; [split; [assumption|]; split; [assumption|now left]|]. destruct (b_vis0 g Hg) as [P1 [P2 P3]]. repeat split; auto. now right.
        - intros x Hx. apply b_wlU0. rewrite EW. now right.
        - intros n t Ht. destruct (b_tgt0 n t Ht) as [H|[H|H]]; [now left|right; left; now right|right; auto].
        - intros g Hg. destruct (b_entry0 g Hg) as [H|[H|H]]; [now left|right; left; now right|right; auto].
        - intros g [<- |Hg]; [left; now left|]. destruct (b_fs0 g Hg) as [H|H]; [left; now right|now right].
        - intros g [[<- |Hg]|Hg]; [assumption|apply b_reach0; now left|apply b_reach0; right; rewrite EW; now right].
        - intros n c Hn. destruct (b_done0 n c Hn) as [g [Hg Hi]]. exists g. split; [now right|assumption]. }
      destruct (processInstrs_ok f (instrs f) true st1 done es (f :: fs) ns B1) as [b [st2 [es2 [fs2 [ns2 [E2 [B2 [V2 _]]]]]]]].
      + now left.
      + apply incl_refl.
      + rewrite <- sites_callPart.
        assert (D : forall n, In n (map fst done) -> ~ In n (sites instrs f)).
        { intros n Hn Hs. apply in_map_iff in Hn. destruct Hn as [[m c] [<- Hn]]. destruct (b_done _ _ _ _ _ B _ _ Hn) as [g [Hg Hi]]. cbn in Hs.
          assert (Hg2 : In m (sites instrs g)) by (rewrite sites_callPart; apply in_map_iff; exists (m, c); split; [reflexivity|now apply In_callPart]).
          rewrite (wf_disj _ _ _ WF g f m Hg2 Hs) in Hg. contradiction. }
        clear - D B WF. pose proof (b_ND _ _ _ _ _ B) as N1. pose proof (wf_sites _ _ _ WF f) as N2.
        induction (map fst done) as [|x l IH]; [exact N2|]. cbn. inversion N1; subst. constructor.
        * rewrite in_app_iff. intros [H|H]; [contradiction|]. apply (D x); [now left|assumption].
        * apply IH; [intros n Hn; apply D; now right|assumption].
      + cbn [andb] in E2. exists b, st2. split; [exact E2|]. split; [|right; rewrite V2; repeat split; auto].
        exists (done ++ callPart (instrs f)), es2, fs2, ns2. split; [exact B2|].
        intros g n c Hg Hi. rewrite V2 in Hg. cbn in Hg. apply in_app_iff. destruct Hg as [<- |Hg]; [right; now apply In_callPart|left; eapply C; eauto].
  Qed.

  (** ** the worklist *)
  Lemma visited_card st : CI st -> length (visited st) <= cardU.
  Proof.
    intros [done [es [fs [ns [B _]]]]]. apply incl_len; [apply (b_visND _ _ _ _ _ B)|]. intros f Hf. apply (b_vis _ _ _ _ _ B f Hf).
  Qed.

  Lemma drain_ok : forall m k st fp, CI st -> cardU - length (visited st) <= m -> length (wl st) <= k ->
    exists N, forall fuel, N <= fuel -> exists b st', drain asserts isDecl instrs resolve handle pre post other fuel fp st = Done _ (b, st')
      /\ CI st' /\ wl st' = [] /\ length (visited st) <= length (visited st') /\
      (length (visited st') = length (visited st) -> b = fp /\ indirect st' = indirect st).
  Proof.
    induction m as [m IHm] using lt_wf_ind. intro k. induction k as [k IHk] using lt_wf_ind. intros st fp HC Hm Hk.
    destruct (wl st) as [|f w] eqn:EW.
    - exists 0. intros fuel _. exists fp, st. destruct fuel; cbn [drain]; rewrite EW; auto 10.
    - destruct (processFunction_ok f w st HC EW) as [b [st1 [E [HC1 D]]]]. destruct D as [[V [W [-> Ei]]]|[V [Nf HfU]]].
      + assert (P1 : length w < k) by (cbn in Hk; lia).
        assert (P2 : cardU - length (visited st1) <= m) by now rewrite V.
        assert (P3 : length (wl st1) <= length w) by now rewrite W.
        destruct (IHk (length w) P1 st1 (fp && true) HC1 P2 P3) as [N HN].
        exists (S N). intros fuel Hfuel. destruct fuel as [|fuel]; [lia|]. destruct (HN fuel ltac:(lia)) as [b' [st' [E' [C' [W' [L' S']]]]]].
        exists b', st'. cbn [drain]. rewrite EW, E. split; [exact E'|]. split; [exact C'|]. split; [exact W'|]. rewrite V in *. split; [exact L'|].
        intro H. destruct (S' H) as [-> ->]. rewrite andb_true_r. auto.
      + assert (L : length (visited st1) = S (length (visited st))) by now rewrite V.
        pose proof (visited_card _ HC1) as Cd.
        assert (P1 : m - 1 < m) by (rewrite L in Cd; lia).
        assert (P2 : cardU - length (visited st1) <= m - 1) by lia.
        destruct (IHm (m - 1) P1 (length (wl st1)) st1 (fp && b) HC1 P2 (le_n _)) as [N HN].
        exists (S N). intros fuel Hfuel. destruct fuel as [|fuel]; [lia|]. destruct (HN fuel ltac:(lia)) as [b' [st' [E' [C' [W' [L' S']]]]]].
        exists b', st'. cbn [drain]. rewrite EW, E. split; [exact E'|]. split; [exact C'|]. split; [exact W'|]. split; [lia|]. intro H. lia.
  Qed.

  (** ** indirect calls again *)
  Definition sameAns (r r' : R) := forall n, resolve r n = resolve r' n.

  Lemma dynCall_ok n st : CI st -> In n (akeys (indirect st)) ->
    exists b st', constructDynamicCall asserts resolve handle pre post n st = Some (b, st') /\ CI st' /\ visited st' = visited st
      /\ (forall m, In m (akeys (indirect st')) <-> In m (akeys (indirect st)))
      /\ (forall m k, afind m (indirect st) = Some k -> exists k', afind m (indirect st') = Some k' /\ k <= k')
      /\ (b = true -> exists k k', afind n (indirect st) = Some k /\ afind n (indirect st') = Some k' /\ k < k')
      /\ (b = false -> bcg st' = bcg st /\ wl st' = wl st /\ indirect st' = indirect st
            /\ (Quiet -> sameAns (res st') (res st) /\ exists k, afind n (indirect st) = Some k /\ length (resolve (res st) n) <= k)).
  Proof.
    intros [done [es [fs [ns [B C]]]]] Hn. unfold constructDynamicCall.
    pose proof (proj1 (b_ind _ _ _ _ _ B n) Hn) as Hd.
    assert (Hv : In n (akeys (calleesAt (bcg st)))).
    { apply (iN _ _ _ _ (b_inv _ _ _ _ _ B)). apply (b_ns _ _ _ _ _ B). apply (in_map fst) in Hd. exact Hd. }
    unfold getInstVertexOrNull. destruct (afind n (calleesAt (bcg st))) as [v|] eqn:Ev; [|apply afind_None in Ev; contradiction].
    pose proof (b_site _ _ _ _ _ B n Indirect Hd) as S0. cbn [siteOk] in S0. destruct S0 as [k [K [KU [ND [M1 M2]]]]]. rewrite K.
    set (r1 := pre (res st) n).
    destruct (length (resolve r1 n) <=? k) eqn:Q.
    - exists false. eexists. split; [reflexivity|].
      split.
      { exists done, es, fs, ns. split; [|exact C]. destruct B. constructor; cbn [bcg visited wl indirect res]; auto.
        intros m c Hm. eapply siteOk_grow; [apply (b_site0 m c Hm)|reflexivity|reflexivity|]. intro M. cbn.
        eapply (m_trans _ _ _ _ _ _ M); [apply (m_pre _ _ _ _ _ _ M)|apply (m_post _ _ _ _ _ _ M)]. }
      split; [reflexivity|]. split; [intro; cbn; tauto|]. split; [intros m j Hm; exists j; cbn; auto|]. split; [discriminate|].
      intros _. cbn [bcg wl indirect res]. split; [reflexivity|]. split; [reflexivity|]. split; [reflexivity|]. intro Qt. split.
      + intro m. unfold r1. rewrite (proj2 (Qt (pre (res st) n) n m)). apply Qt.
      + exists k. split; [reflexivity|]. apply Nat.leb_le in Q. unfold r1 in Q. rewrite (proj1 (Qt (res st) n n)) in Q. exact Q.
    - apply Nat.leb_gt in Q. rewrite (iVc _ _ _ _ (b_inv _ _ _ _ _ B) _ _ Ev).
      set (new := filter (fun t => negb (mem t (calleesIn es n))) (resolve r1 n)).
      assert (HnewIn : forall t, In t new <-> In t (resolve r1 n) /\ ~ In t (calleesIn es n)).
      { intro t. unfold new. rewrite filter_In, negb_true_iff, mem_false. tauto. }
      assert (HT : incl new U) by (intros t Ht; apply HnewIn in Ht; apply (wf_resolve _ _ _ WF r1 n); apply Ht).
      destruct (addTargets_inv asserts n v U new (bcg st) (wl st) _ _ _ (b_inv _ _ _ _ _ B) Ev (b_fsU _ _ _ _ _ B) HT (b_cap _ _ _ _ _ B)) as [s2 [E2 [I2 [Cp2 Ca2]]]].
      rewrite E2. exists true. eexists. split; [reflexivity|].
      destruct (b_done _ _ _ _ _ B n Indirect Hd) as [f [Hf Hi]].
      assert (Hle : Mono -> le (res st) (post (handle r1 n new) n)).
      { intro M. pose proof (m_trans _ _ _ _ _ _ M) as T. eapply T; [apply (m_pre _ _ _ _ _ _ M (res st) n)|].
        eapply T; [apply (m_handle _ _ _ _ _ _ M _ n new)|apply (m_post _ _ _ _ _ _ M)]. }
      assert (Hle1 : Mono -> le r1 (post (handle r1 n new) n)).
      { intro M. pose proof (m_trans _ _ _ _ _ _ M) as T. eapply T; [apply (m_handle _ _ _ _ _ _ M _ n new)|apply (m_post _ _ _ _ _ _ M)]. }
      split.
      { exists done, (es ++ map (fun t => (n, t)) new), (rev new ++ fs), ns. split; [|exact C].
        pose proof B as B0. destruct B. constructor; cbn [bcg visited wl indirect res]; auto.
        - lia.
        - intros x Hx. apply in_app_iff in Hx. destruct Hx as [Hx|Hx]; [apply HT; now apply in_rev|auto].
        - intros g Hg. destruct (b_vis0 g Hg) as [P1 [P2 P3]]. split; [assumption|]. split; [assumption|]. apply in_app_iff. now right.
        - intros x Hx. apply in_app_iff in Hx. destruct Hx as [Hx|Hx]; [apply HT; now apply in_rev|auto].
        - intro m. rewrite In_akeys_aset, b_ind0. split; [intros [-> |H]; assumption|auto].
        - now apply NoDup_aset.
        - intros m c Hm. destruct (Nat.eq_dec m n) as [->|Nm].
          + assert (c = Indirect) as ->.
            { clear - Hm Hd b_ND0. induction done as [|[a d] l IH]; [contradiction|]. cbn in b_ND0. inversion b_ND0; subst.
              destruct Hm as [Hm|Hm], Hd as [Hd|Hd]; try congruence; auto.
              - injection Hm as -> ->. elim H1. apply (in_map fst) in Hd. exact Hd.
              - injection Hd as -> ->. elim H1. apply (in_map fst) in Hm. exact Hm. }
            cbn [siteOk indirect res]. rewrite calleesIn_targets, Nat.eqb_refl. exists (length (resolve r1 n)). rewrite afind_aset_eq.
            split; [reflexivity|]. split; [apply resolve_card|].
            assert (NDn : NoDup (calleesIn es n ++ new)).
            { assert (NN : NoDup new) by (apply NoDup_filter; apply (wf_resolve _ _ _ WF)).
              assert (Dj : forall x, In x (calleesIn es n) -> ~ In x new) by (intros x Hx Hx2; apply HnewIn in Hx2; tauto).
              apply NoDup_app2; assumption. }
            split; [exact NDn|]. split.
            * intro M. destruct (M1 M) as [I1 L1].
              assert (I1' : incl (calleesIn es n) (resolve r1 n)).
              { intros x Hx. apply (m_resolve _ _ _ _ _ _ M (res st)); [apply (m_pre _ _ _ _ _ _ M)|auto]. }
              assert (Eq : forall x, In x (calleesIn es n ++ new) <-> In x (resolve r1 n)).
              { intro x. rewrite in_app_iff, HnewIn. split; [intros [H|[H _]]; auto|]. intro H. destruct (in_dec Nat.eq_dec x (calleesIn es n)); auto. }
              split; [intros x Hx; apply (m_resolve _ _ _ _ _ _ M r1); [apply Hle1; exact M|now apply Eq]|].
              apply Nat.le_antisymm; apply NoDup_incl_length; auto; [intros x; apply Eq|apply (wf_resolve _ _ _ WF)|intros x; apply Eq].
            * intros S x Hx. rewrite (S _ (res st) n) in Hx. apply in_app_iff. left. now apply (M2 S).
          + eapply siteOk_grow; [apply (b_site0 m c Hm)| | |].
            * rewrite calleesIn_targets. rewrite Nat.eqb_sym. apply Nat.eqb_neq in Nm. now rewrite Nm, app_nil_r.
            * intros _. cbn. now rewrite afind_aset_neq.
            * exact Hle.
        - intros m t Hm. apply in_app_iff in Hm. destruct Hm as [Hm|Hm].
          * destruct (b_tgt0 m t Hm) as [H|[H|H]]; auto. right; right. apply in_app_iff. now right.
          * apply in_map_iff in Hm. destruct Hm as [x [E Hx]]. injection E as <- <-. right; right. apply in_app_iff. left. now apply in_rev in Hx.
        - intros g Hg. destruct (b_entry0 g Hg) as [H|[H|H]]; auto. right; right. apply in_app_iff. now right.
        - intros g Hg. apply in_app_iff in Hg. destruct Hg as [Hg|Hg].
          * right. exists n. apply in_app_iff. right. apply in_map_iff. exists g. split; [reflexivity|]. now apply in_rev.
          * destruct (b_fs0 g Hg) as [H|[m Hm]]; [now left|]. right. exists m. apply in_app_iff. now left.
        - intros g Hg.
          assert (Hold : In g (visited st) \/ In g (wl st) -> greach (es ++ map (fun t => (n, t)) new) g).
          { intro H. eapply greach_mono; [|apply b_reach0; exact H]. apply incl_appl, incl_refl. }
          destruct Hg as [Hg|Hg]; [auto|]. apply in_app_iff in Hg. destruct Hg as [Hg|Hg]; [|auto].
          apply (gr_call _ f n Indirect); [eapply greach_mono; [|apply b_reach0; left; exact Hf]; apply incl_appl, incl_refl|apply (b_vis0 f Hf)|exact Hi|].
          apply in_app_iff. right. apply in_map_iff. exists g. split; [reflexivity|]. now apply in_rev. }
      split; [reflexivity|]. cbn [indirect].
      split; [intro m; rewrite In_akeys_aset; split; [intros [-> |H]; assumption|auto]|].
      split; [|split; [|discriminate]].
      + intros m j Hm. rewrite afind_aset. destruct (eq_dec m n) as [->|]; [|eauto]. eexists; split; [reflexivity|]. rewrite K in Hm. injection Hm as <-. lia.
      + intros _. exists k, (length (resolve r1 n)). rewrite afind_aset_eq. auto.
  Qed.

  (** the potential that bounds the number of rounds *)
  Definition slack (ind : list (nat * nat)) : nat := list_sum (map (fun e => cardU - snd e) ind).

  Lemma slack_le : forall ind ind', akeys ind = akeys ind' -> NoDup (akeys ind) -> (forall m k, afind m ind = Some k -> exists k', afind m ind' = Some k' /\ k <= k') -> slack ind' <= slack ind.
  Proof.
    unfold slack. induction ind as [|[m k] ind IH]; intros [|[m' k'] ind'] E ND H; try discriminate; [reflexivity|].
    cbn in E. injection E as <- E. cbn in ND. inversion ND as [|a b Hn ND']; subst. cbn [map list_sum fold_right snd].
    assert (Hk : k <= k').
    { destruct (H m k) as [j [A L]]; [cbn; destruct (eq_dec m m); [reflexivity|congruence]|]. cbn in A. destruct (eq_dec m m); [|congruence]. injection A as <-. exact L. }
    assert (Hr : list_sum (map (fun e => cardU - snd e) ind') <= list_sum (map (fun e => cardU - snd e) ind)).
    { apply IH; auto. intros x j Hx. destruct (H x j) as [j' [A L]].
      - cbn. destruct (eq_dec x m) as [->|]; [|exact Hx]. apply afind_Some_key in Hx. contradiction.
      - cbn in A. destruct (eq_dec x m) as [->|]; [|eauto]. apply afind_Some_key in Hx. contradiction. }
    unfold list_sum in Hr. lia.
  Qed.

  Lemma akeys_aset_in {K V} `{EqDec K} (k : K) (v : V) l : In k (akeys l) -> akeys (aset k v l) = akeys l.
  Proof.
    induction l as [|[a b] l IH]; [contradiction|]. cbn. destruct (eq_dec k a) as [->|N]; cbn; [reflexivity|]. intros [-> |Hi]; [congruence|]. f_equal. exact (IH Hi).
  Qed.
  Lemma slack_aset ind n k k' : NoDup (akeys ind) -> afind n ind = Some k -> k < k' -> k' <= cardU -> slack (aset n k' ind) < slack ind.
  Proof.
    unfold slack. induction ind as [|[m j] ind IH]; intros ND A L1 L2; [discriminate|]. cbn in A |- *. cbn in ND. inversion ND; subst.
    destruct (eq_dec n m) as [->|N]; cbn.
    - injection A as ->. lia.
    - specialize (IH H2 A L1 L2). unfold list_sum in IH. lia.
  Qed.

  (** exact shape of IndirectCalls after constructDynamicCall *)
  Lemma dynCall_shape n st b st' : constructDynamicCall asserts resolve handle pre post n st = Some (b, st') ->
    indirect st' = if b then aset n (length (resolve (pre (res st) n) n)) (indirect st) else indirect st.
  Proof.
    unfold constructDynamicCall. destruct (getInstVertexOrNull n (bcg st)); [|discriminate].
    destruct (afind n (indirect st)) eqn:A; [|discriminate].
    destruct (_ <=? _); [intro E; injection E as <- <-; reflexivity|].
    destruct (nth_error _ _); [|discriminate]. destruct (addTargets _ _ _ _ _ _) as [[s w]|]; [|discriminate].
    intro E; injection E as <- <-; reflexivity.
  Qed.

  Lemma dynFold_ok : forall l fp st, CI st -> incl l (akeys (indirect st)) ->
    exists b st', fold_left (dynStep asserts resolve handle pre post) l (Some (fp, st)) = Some (fp && b, st') /\ CI st' /\ visited st' = visited st
      /\ akeys (indirect st') = akeys (indirect st)
      /\ slack (indirect st') <= slack (indirect st) /\ (b = false -> slack (indirect st') < slack (indirect st))
      /\ (b = true -> bcg st' = bcg st /\ wl st' = wl st /\ indirect st' = indirect st
            /\ (Quiet -> sameAns (res st') (res st) /\ forall n, In n l -> exists k, afind n (indirect st) = Some k /\ length (resolve (res st) n) <= k)).
  Proof.
    induction l as [|n l IH]; intros fp st HC Hl.
    - exists true, st. cbn. rewrite andb_true_r. repeat split; auto; try discriminate. contradiction.
    - destruct (dynCall_ok n st HC (Hl n (or_introl eq_refl))) as [b [st1 [E [HC1 [V1 [K1 [G1 [T1 F1]]]]]]]].
      pose proof (dynCall_shape _ _ _ _ E) as Sh.
      assert (Ks : akeys (indirect st1) = akeys (indirect st)).
      { rewrite Sh. destruct b; [|reflexivity]. apply akeys_aset_in. apply Hl. now left. }
      assert (NDi : NoDup (akeys (indirect st))) by (destruct HC as [d [es [fs [ns [B _]]]]]; apply (b_indND _ _ _ _ _ B)).
      assert (Sl : slack (indirect st1) <= slack (indirect st)) by (apply slack_le; auto).
      assert (Sl2 : b = true -> slack (indirect st1) < slack (indirect st)).
      { intros ->. destruct (T1 eq_refl) as [k [k' [A1 [A2 L]]]]. rewrite Sh in A2. rewrite afind_aset_eq in A2. injection A2 as <-.
        rewrite Sh. eapply slack_aset; eauto. apply resolve_card. }
      cbn [fold_left dynStep]. rewrite E.
      destruct (IH (fp && negb b) st1 HC1) as [b2 [st2 [E2 [HC2 [V2 [K2 [S2 [S2' F2]]]]]]]].
      { rewrite Ks. intros x Hx. apply Hl. now right. }
      exists (negb b && b2), st2. rewrite E2, andb_assoc. split; [reflexivity|]. split; [exact HC2|]. split; [congruence|]. split; [congruence|].
      split; [lia|]. split.
      + intro Q. apply andb_false_iff in Q. destruct Q as [Q|Q]; [apply negb_false_iff in Q; specialize (Sl2 Q); lia|specialize (S2' Q); lia].
      + intro Q. apply andb_true_iff in Q. destruct Q as [Q1 Q2]. apply negb_true_iff in Q1. destruct (F1 Q1) as [P1 [P2 [P3 P4]]]. destruct (F2 Q2) as [R1 [R2 [R3 R4]]].
        split; [congruence|]. split; [congruence|]. split; [congruence|]. intro Qt. destruct (P4 Qt) as [A1 A2]. destruct (R4 Qt) as [C1 C2]. split.
        * intro m. now rewrite (C1 m), (A1 m).
        * intros m [<- |Hm]; [exact A2|]. destruct (C2 m Hm) as [k [D1 D2]]. exists k. rewrite P3 in D1. split; [exact D1|]. now rewrite <- (A1 m).
  Qed.

  (** what a completed run guarantees *)
  Definition Final (requires : bool) (st : bst) : Prop :=
    CI st /\ wl st = [] /\ (requires = true -> Quiet -> forall n, In n (akeys (indirect st)) -> exists k, afind n (indirect st) = Some k /\ length (resolve (res st) n) <= k).

  Lemma drain_more : forall k fp st x, drain asserts isDecl instrs resolve handle pre post other k fp st = Done _ x ->
    forall k', k <= k' -> drain asserts isDecl instrs resolve handle pre post other k' fp st = Done _ x.
  Proof.
    induction k as [|k IH]; intros fp st x E k' L.
    - cbn [drain] in E. destruct (wl st) eqn:W; [|discriminate]. destruct k'; cbn [drain]; rewrite W; exact E.
    - cbn [drain] in E. destruct (wl st) eqn:W; [destruct k'; cbn [drain]; rewrite W; exact E|].
      destruct k' as [|k']; [lia|]. cbn [drain]. rewrite W.
      destruct (processFunction _ _ _ _ _ _ _ _ _ _) as [[b s]|]; [|discriminate]. apply IH; [exact E|lia].
  Qed.

  Lemma loop_ok requires : forall m j st, CI st -> cardU - length (visited st) <= m -> slack (indirect st) <= j ->
    exists N, forall fuel, N <= fuel -> exists st', buildLoop asserts isDecl instrs resolve handle pre post other order fuel requires st = Done _ st' /\ Final requires st'.
  Proof.
    induction m as [m IHm] using lt_wf_ind. intro j. induction j as [j IHj] using lt_wf_ind. intros st HC Hm Hj.
    destruct (drain_ok m (length (wl st)) st true HC Hm (le_n _)) as [Nd HNd].
    destruct (HNd Nd (le_n _)) as [bd [st1 [Ed [HC1 [W1 [L1 Q1]]]]]].
    pose proof (drain_more _ _ _ _ Ed) as Dr. pose proof (visited_card _ HC1) as Vc.
    (* continue with a state that is smaller *)
    assert (Step : forall st2, (length (visited st2) = length (visited st1)) -> CI st2 ->
       (length (visited st1) = length (visited st) -> slack (indirect st2) < slack (indirect st)) ->
       exists N, forall fuel, N <= fuel -> exists st', buildLoop asserts isDecl instrs resolve handle pre post other order fuel requires st2 = Done _ st' /\ Final requires st').
    { intros st2 V2 HC2 Sl. destruct (Nat.eq_dec (length (visited st1)) (length (visited st))) as [Eq|Ne].
      - specialize (Sl Eq). apply (IHj (slack (indirect st2))); auto; lia.
      - apply (IHm (cardU - length (visited st2))) with (j := slack (indirect st2)); auto; lia. }
    destruct requires eqn:Rq.
    - destruct (dynFold_ok (order (akeys (indirect st1))) bd st1 HC1) as [b [st2 [E [HC2 [V2 [K2 [S2 [S2' F2]]]]]]]].
      { intros x Hx. apply (Permutation_in _ (Hord _)). exact Hx. }
      destruct (bd && b) eqn:Fx.
      + exists (S Nd). intros fuel Hf. destruct fuel as [|fuel]; [lia|]. exists st2. cbn [buildLoop]. rewrite (Dr (S fuel)) by lia. rewrite E.
        split; [reflexivity|]. apply andb_true_iff in Fx. destruct Fx as [-> ->]. destruct (F2 eq_refl) as [P1 [P2 [P3 P4]]].
        split; [exact HC2|]. split; [congruence|]. intros _ Qt n Hn. destruct (P4 Qt) as [A1 A2]. rewrite P3. rewrite P3 in Hn.
        destruct (A2 n) as [k [D1 D2]]; [apply (Permutation_in _ (Permutation_sym (Hord _))); exact Hn|]. exists k. split; [exact D1|]. now rewrite (A1 n).
      + destruct (Step st2) as [N HN]; [now rewrite V2|assumption| |].
        { intro Eq. destruct (Q1 Eq) as [-> I1]. cbn in Fx. subst b. specialize (S2' eq_refl). rewrite I1 in S2'. exact S2'. }
        exists (S (Nat.max N Nd)). intros fuel Hf. destruct fuel as [|fuel]; [lia|]. destruct (HN fuel ltac:(lia)) as [st' [E' F']].
        exists st'. cbn [buildLoop]. rewrite (Dr (S fuel)) by lia. rewrite E. auto.
    - destruct bd.
      + exists (S Nd). intros fuel Hf. destruct fuel as [|fuel]; [lia|]. exists st1. cbn [buildLoop]. rewrite (Dr (S fuel)) by lia.
        split; [reflexivity|]. split; [exact HC1|]. split; [exact W1|discriminate].
      + destruct (Step st1) as [N HN]; [reflexivity|assumption| |].
        { intro Eq. destruct (Q1 Eq). discriminate. }
        exists (S (Nat.max N Nd)). intros fuel Hf. destruct fuel as [|fuel]; [lia|]. destruct (HN fuel ltac:(lia)) as [st' [E' F']].
        exists st'. cbn [buildLoop]. rewrite (Dr (S fuel)) by lia. auto.
  Qed.

  Lemma buildLoop_more requires : forall k st x, buildLoop asserts isDecl instrs resolve handle pre post other order k requires st = Done _ x ->
    forall k', k <= k' -> buildLoop asserts isDecl instrs resolve handle pre post other order k' requires st = Done _ x.
  Proof.
    induction k as [|k IH]; intros st x E k' L; [discriminate|]. destruct k' as [|k']; [lia|]. cbn [buildLoop] in *.
    destruct (drain _ _ _ _ _ _ _ _ (S k) true st) as [[fp st1]| |] eqn:D; try discriminate.
    rewrite (drain_more _ _ _ _ D (S k')) by lia.
    destruct (if requires then _ else _) as [[[|] st2]|]; try discriminate; [exact E|]. apply IH; [exact E|lia].
  Qed.

  (** ** start *)
  Variable numFunctions : nat.
  Hypothesis Hcap : cardU <= numFunctions.
  Lemma init_CI r : CI (initB numFunctions entry r).
  Proof.
    exists [], [], [], []. split; [|intros f n c []].
    destruct (step_inv asserts (Reserve numFunctions) _ _ _ _ inv_empty (or_intror eq_refl)) as [s1 [E1 I1]]. cbn in E1. injection E1 as <-.
    cbn [edgeOf funOf instOf rev app] in I1.
    constructor; cbn [initB bcg visited wl indirect res map akeys].
    - exact I1.
    - apply Nat.le_trans with numFunctions; [exact Hcap|]. unfold reserve. cbn [funCap emptyCG].
      destruct (numFunctions <=? 0) eqn:Z; [apply Nat.leb_le in Z; exact Z|apply le_n].
    - intros x [].
    - constructor.
    - intros f [].
    - intros x Hx. apply HentU. now apply in_rev.
    - constructor.
    - intro n. tauto.
    - intro n. cbn. tauto.
    - constructor.
    - intros n c [].
    - intros n t [].
    - intros f Hf. right; right. now apply in_rev in Hf.
    - intros f [].
    - intros f [[]|Hf]. apply gr_entry. now apply in_rev.
    - intros n c [].
  Qed.

  Lemma terminates r sound mutates : exists N, forall fuel, N <= fuel -> exists st,
    buildCallGraph asserts isDecl instrs resolve handle pre post other order fuel numFunctions entry r sound mutates = Done _ st /\ Final (sound && mutates) st.
  Proof. unfold buildCallGraph. apply (loop_ok (sound && mutates) _ _ _ (init_CI r) (le_n _) (le_n _)). Qed.

  Lemma build_final r sound mutates fuel st :
    buildCallGraph asserts isDecl instrs resolve handle pre post other order fuel numFunctions entry r sound mutates = Done _ st -> Final (sound && mutates) st.
  Proof.
    intro E. destruct (terminates r sound mutates) as [N HN]. destruct (HN (Nat.max N fuel) ltac:(lia)) as [st' [E' F]].
    unfold buildCallGraph in *. rewrite (buildLoop_more _ _ _ _ E (Nat.max N fuel)) in E' by lia. injection E' as <-. exact F.
  Qed.

  (** ** meaning *)
  Lemma final_site st done es fs ns requires n c : Final requires st -> BI st done es fs ns -> In (n, c) done ->
    (Mono /\ Quiet /\ requires = true) \/ Stl -> (Stl -> Mono) ->
    NoDup (calleesIn es n) /\ forall t, In t (calleesIn es n) <-> In t (targetsOf resolve (res st) n c).
  Proof.
    intros [_ [_ F]] B Hd Cond SM. pose proof (b_site _ _ _ _ _ B n c Hd) as S0. destruct c as [t| |]; cbn [siteOk targetsOf] in *.
    - rewrite S0. split; [repeat constructor; intros []|intro; tauto].
    - rewrite S0. split; [constructor|intro; tauto].
    - destruct S0 as [k [K [KU [ND [M1 M2]]]]]. split; [exact ND|]. intro t. destruct Cond as [[M [Qt Rq]]|S].
      + destruct (M1 M) as [I1 L1]. split; [apply I1|].
        destruct (F Rq Qt n) as [k' [K' L]]; [apply (b_ind _ _ _ _ _ B); exact Hd|]. rewrite K in K'. injection K' as <-.
        apply NoDup_length_incl; [exact ND|lia|exact I1].
      + destruct (M1 (SM S)) as [I1 _]. split; [apply I1|apply (M2 S)].
  Qed.

  Lemma final_graph st requires : Final requires st -> (Mono /\ Quiet /\ requires = true) \/ Stl -> (Stl -> Mono) ->
    NoDup (visited st)
    /\ (forall f, In f (visited st) <-> creach isDecl instrs resolve entry (res st) f /\ isDecl f = false)
    /\ (forall f, In f (getAllVertexFunctions (bcg st)) <->
          (creach isDecl instrs resolve entry (res st) f /\ isDecl f = false)
          \/ exists g n c, creach isDecl instrs resolve entry (res st) g /\ isDecl g = false /\ In (CallI n c) (instrs g) /\ In f (targetsOf resolve (res st) n c))
    /\ (forall g n c, creach isDecl instrs resolve entry (res st) g -> isDecl g = false -> In (CallI n c) (instrs g) ->
          In n (getAllVertexCallSites (bcg st)) /\ exists l, getCalleesOfCallAt n (bcg st) = Some l /\ NoDup l /\ forall t, In t l <-> In t (targetsOf resolve (res st) n c))
    /\ (forall n, In n (getAllVertexCallSites (bcg st)) -> exists g c, creach isDecl instrs resolve entry (res st) g /\ isDecl g = false /\ In (CallI n c) (instrs g)).
  Proof.
    intros F Cond SM. pose proof F as F0. destruct F as [[done [es [fs [ns [B C]]]]] [W _]].
    assert (Site : forall n c, In (n, c) done -> NoDup (calleesIn es n) /\ forall t, In t (calleesIn es n) <-> In t (targetsOf resolve (res st) n c)).
    { intros n c Hd. exact (final_site st done es fs ns requires n c F0 B Hd Cond SM). }
    assert (EdgeSite : forall n t, In (n, t) es -> exists g c, In g (visited st) /\ In (CallI n c) (instrs g) /\ In (n, c) done).
    { intros n t H. pose proof (proj1 (iE _ _ _ _ (b_inv _ _ _ _ _ B) _ _ H)) as H2. apply (iN _ _ _ _ (b_inv _ _ _ _ _ B)) in H2.
      apply (b_ns _ _ _ _ _ B) in H2. apply in_map_iff in H2. destruct H2 as [[m c] [<- Hd]]. destruct (b_done _ _ _ _ _ B _ _ Hd) as [g [Hg Hi]]. exists g, c. auto. }
    assert (G1 : forall f, greach es f -> creach isDecl instrs resolve entry (res st) f).
    { induction 1 as [f Hf|g n c t Hg IH Dg Hi He]; [now apply cr_entry|].
      destruct (EdgeSite n t He) as [g' [c' [Hv [Hi' Hd]]]].
      apply (cr_call _ _ _ _ _ g n c); auto.
      assert (g' = g) as ->.
      { apply (wf_disj _ _ _ WF g' g n); rewrite sites_callPart; apply in_map_iff; [exists (n, c')|exists (n, c)]; split; try reflexivity; now apply In_callPart. }
      assert (In (n, c) done) as Hd2 by (eapply C; eauto).
      apply (proj2 (Site n c Hd2)). now apply In_callees. }
    assert (G2 : forall f, creach isDecl instrs resolve entry (res st) f -> isDecl f = true \/ In f (visited st)).
    { induction 1 as [f Hf|g n c t Hg IH Dg Hi Ht].
      - destruct (b_entry _ _ _ _ _ B f Hf) as [H|[H|H]]; auto. rewrite W in H. contradiction.
      - destruct IH as [IH|IH]; [congruence|]. assert (Hd : In (n, c) done) by (eapply C; eauto).
        apply (proj2 (Site n c Hd)) in Ht. apply In_callees in Ht. destruct (b_tgt _ _ _ _ _ B n t Ht) as [H|[H|H]]; auto. rewrite W in H. contradiction. }
    assert (V : forall f, In f (visited st) <-> creach isDecl instrs resolve entry (res st) f /\ isDecl f = false).
    { intro f. split.
      - intro H. split; [apply G1; apply (b_reach _ _ _ _ _ B); now left|apply (b_vis _ _ _ _ _ B f H)].
      - intros [H D]. destruct (G2 f H); [congruence|assumption]. }
    split; [apply (b_visND _ _ _ _ _ B)|]. split; [exact V|]. split; [|split].
    - intro f. unfold getAllVertexFunctions. rewrite (iF _ _ _ _ (b_inv _ _ _ _ _ B)). split.
      + intro H. destruct (b_fs _ _ _ _ _ B f H) as [H1|[n H1]]; [left; now apply V|]. right.
        destruct (EdgeSite n f H1) as [g [c [Hv [Hi Hd]]]]. exists g, n, c. apply V in Hv. destruct Hv as [Hr Dg]. repeat split; auto.
        apply (proj2 (Site n c Hd)). now apply In_callees.
      + intros [H|[g [n [c [Hr [Dg [Hi Ht]]]]]]].
        * apply V in H. apply (b_vis _ _ _ _ _ B f H).
        * assert (Hv : In g (visited st)) by (apply V; auto). assert (Hd : In (n, c) done) by (eapply C; eauto).
          apply (proj2 (Site n c Hd)) in Ht. apply In_callees in Ht. apply (iF _ _ _ _ (b_inv _ _ _ _ _ B)). apply (proj2 (iE _ _ _ _ (b_inv _ _ _ _ _ B) _ _ Ht)).
    - intros g n c Hr Dg Hi. assert (Hv : In g (visited st)) by (apply V; auto). assert (Hd : In (n, c) done) by (eapply C; eauto). split.
      + unfold getAllVertexCallSites. apply (iN _ _ _ _ (b_inv _ _ _ _ _ B)). apply (b_ns _ _ _ _ _ B). apply (in_map fst) in Hd. exact Hd.
      + exists (calleesIn es n). split; [exact (inv_callees _ _ _ _ n (b_inv _ _ _ _ _ B))|]. exact (Site n c Hd).
    - intros n Hn. unfold getAllVertexCallSites in Hn. apply (iN _ _ _ _ (b_inv _ _ _ _ _ B)) in Hn. apply (b_ns _ _ _ _ _ B) in Hn.
      apply in_map_iff in Hn. destruct Hn as [[m c] [<- Hd]]. destruct (b_done _ _ _ _ _ B _ _ Hd) as [g [Hg Hi]]. exists g, c. apply V in Hg. cbn. tauto.
  Qed.
End P.
