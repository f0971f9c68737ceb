From Coq Require Import String List Bool Arith NArith Lia Permutation.
From Verif Require Import Assoc CallGraphModel CallGraphSpec.
Import ListNotations.
Open Scope nat_scope.

Lemma upd_spec {A} (g : A -> A) l i x : nth_error l i = Some x ->
  exists l', upd i g l = Some l' /\ length l' = length l /\
    forall j, nth_error l' j = if j =? i then Some (g x) else nth_error l j.
Proof.
  revert i. induction l as [|a l IH]; intros [|i] H; cbn in H; try discriminate.
  - injection H as ->. exists (g x :: l). cbn. split; [reflexivity|]. split; [reflexivity|]. intros [|j]; reflexivity.
  - destruct (IH i H) as [l' [E [L N]]]. exists (a :: l'). cbn. rewrite E. split; [reflexivity|]. split; [congruence|].
    intros [|j]; cbn; [reflexivity|apply N].
Qed.

Lemma calleesIn_app es e n : calleesIn (es ++ [e]) n = calleesIn es n ++ (if fst e =? n then [snd e] else []).
Proof. unfold calleesIn. rewrite filter_app, map_app. cbn. destruct (fst e =? n); reflexivity. Qed.
Lemma callersIn_app es e f : callersIn (es ++ [e]) f = callersIn es f ++ (if snd e =? f then [fst e] else []).
Proof. unfold callersIn. rewrite filter_app, map_app. cbn. destruct (snd e =? f); reflexivity. Qed.
Lemma calleesIn_none es n : (forall f, ~ In (n, f) es) -> calleesIn es n = [].
Proof.
  unfold calleesIn. induction es as [|[a b] es IH]; intro H; [reflexivity|]. cbn.
  destruct (a =? n) eqn:E; [apply Nat.eqb_eq in E; subst; elim (H b); now left|]. apply IH. intros f F. apply (H f). now right.
Qed.
Lemma callersIn_none es f : (forall n, ~ In (n, f) es) -> callersIn es f = [].
Proof.
  unfold callersIn. induction es as [|[a b] es IH]; intro H; [reflexivity|]. cbn.
  destruct (b =? f) eqn:E; [apply Nat.eqb_eq in E; subst; elim (H a); now left|]. apply IH. intros n F. apply (H n). now right.
Qed.

Lemma afind_snoc {K V} `{EqDec K} (k : K) (v : V) l : afind k l = None -> aset k v l = l ++ [(k, v)].
Proof.
  induction l as [|[a b] l IH]; [reflexivity|]. cbn [afind aset]. destruct (eq_dec k a); [discriminate|]. intro E. cbn. f_equal; auto.
Qed.

(** the invariant: [es] edges so far, [fs]/[ns] the registered vertices *)
Record Inv (s : cg) (es : list (inst * fn)) (fs : list fn) (ns : list inst) : Prop := {
  iNDc : NoDup (akeys (calleesAt s));
  iNDf : NoDup (akeys (callersOf s));
  iPc : map snd (calleesAt s) = seq 0 (length (instOwner s));
  iPf : map snd (callersOf s) = map (pair (funGen s)) (seq 0 (length (funOwner s)));
  iVc : forall n i, afind n (calleesAt s) = Some i -> nth_error (instOwner s) i = Some (calleesIn es n);
  iVf : forall f p, afind f (callersOf s) = Some p -> nth_error (funOwner s) (snd p) = Some (callersIn es f);
  iE : forall n f, In (n, f) es -> In n (akeys (calleesAt s)) /\ In f (akeys (callersOf s));
  iF : forall f, In f (akeys (callersOf s)) <-> In f fs;
  iN : forall n, In n (akeys (calleesAt s)) <-> In n ns;
  iC : length (funOwner s) <= funCap s }.

Lemma inv_empty : Inv emptyCG [] [] [].
Proof. constructor; cbn; try constructor; try discriminate; try tauto; auto. Qed.

Lemma sizeOwner s es fs ns : Inv s es fs ns -> size s = length (funOwner s).
Proof. intro I. unfold size. rewrite <- (map_length snd), (iPf _ _ _ _ I), map_length, seq_length. reflexivity. Qed.

Lemma instPtr s es fs ns n i : Inv s es fs ns -> afind n (calleesAt s) = Some i -> i < length (instOwner s).
Proof. intros I E. apply nth_error_Some. rewrite (iVc _ _ _ _ I _ _ E). discriminate. Qed.
Lemma funPtr s es fs ns f p : Inv s es fs ns -> afind f (callersOf s) = Some p -> fst p = funGen s /\ snd p < length (funOwner s).
Proof.
  intros I E. split; [|apply nth_error_Some; rewrite (iVf _ _ _ _ I _ _ E); discriminate].
  apply afind_In in E. apply (in_map snd) in E. rewrite (iPf _ _ _ _ I) in E. apply in_map_iff in E. destruct E as [k [E _]]. cbn in E. subst p. reflexivity.
Qed.

(** pointers identify vertices *)
Lemma seqInj {K} `{EqDec K} (l : list (K * nat)) a k k' i :
  NoDup (akeys l) -> map snd l = seq a (length l) -> afind k l = Some i -> afind k' l = Some i -> k = k'.
Proof.
  revert a. induction l as [|[x j] l IH]; intros a ND E A B; [discriminate|]. cbn in E. injection E as -> E.
  inversion ND; subst. cbn [afind] in A, B.
  assert (Q : forall k0, afind k0 l = Some i -> a < i).
  { intros k0 Hk. apply afind_In in Hk. apply (in_map snd) in Hk. rewrite E in Hk. apply in_seq in Hk. cbn in Hk. lia. }
  destruct (eq_dec k x), (eq_dec k' x); subst.
  - reflexivity.
  - injection A as ->. specialize (Q k' B). lia.
  - injection B as ->. specialize (Q k A). lia.
  - eapply IH; eauto.
Qed.
Lemma instPtrInj s es fs ns n n' i : Inv s es fs ns -> afind n (calleesAt s) = Some i -> afind n' (calleesAt s) = Some i -> n = n'.
Proof.
  intros I. apply (seqInj _ 0); [apply (iNDc _ _ _ _ I)|]. rewrite (iPc _ _ _ _ I).
  assert (L : length (calleesAt s) = length (instOwner s)) by (rewrite <- (map_length snd), (iPc _ _ _ _ I), seq_length; reflexivity).
  now rewrite L.
Qed.
Lemma afind_mapsnd (k : nat) (q : nat * nat) l : afind k l = Some q -> afind k (map (fun e => (fst e, snd (snd e))) l) = Some (snd q).
Proof.
  induction l as [|[x y] r IH]; [discriminate|]. cbn [afind map fst snd].
  destruct (eq_dec k x); [intro E; injection E as ->; reflexivity|apply IH].
Qed.
Lemma funPtrInj s es fs ns f f' p p' : Inv s es fs ns -> afind f (callersOf s) = Some p -> afind f' (callersOf s) = Some p' -> snd p = snd p' -> f = f'.
Proof.
  intros I A B Q.
  set (l := map (fun e => (fst e, snd (snd e))) (callersOf s)).
  assert (G : forall k q, afind k (callersOf s) = Some q -> afind k l = Some (snd q)).
  { intros k q. unfold l. apply afind_mapsnd. }
  apply (seqInj l 0 f f' (snd p)).
  - unfold l, akeys. rewrite map_map. cbn. apply (iNDf _ _ _ _ I).
  - unfold l. rewrite map_map, map_length. cbn.
    rewrite <- (map_map snd snd). rewrite (iPf _ _ _ _ I), map_map. cbn. rewrite map_id.
    fold (size s). now rewrite (sizeOwner _ _ _ _ I).
  - now apply G.
  - rewrite Q. now apply G.
Qed.

(** ** adding vertices *)
Lemma addFun_inv a s es fs ns f : Inv s es fs ns -> room f s ->
  exists p s', addFunctionVertex a f s = Some (p, s') /\ Inv s' es (f :: fs) ns /\ afind f (callersOf s') = Some p
    /\ calleesAt s' = calleesAt s /\ instOwner s' = instOwner s /\ funCap s' = funCap s /\ funGen s' = funGen s
    /\ (forall g q, afind g (callersOf s) = Some q -> afind g (callersOf s') = Some q)
    /\ (In f (akeys (callersOf s)) -> s' = s) /\ (~ In f (akeys (callersOf s)) -> size s' = S (size s)).
Proof.
  intros I R. unfold addFunctionVertex. destruct (afind f (callersOf s)) as [p|] eqn:E.
  - exists p, s. split; [reflexivity|]. pose proof (afind_Some_key _ _ _ E) as K. split; [|repeat split; auto; tauto].
    destruct I as [P1 P2 P3 P4 P5 P6 P7 P8 P9 P10]. constructor; auto.
    intro g. rewrite P8. cbn. split; [auto|]. intros [<- |H]; [now apply P8|assumption].
  - pose proof (proj1 (afind_None _ _) E) as NK. destruct R as [R|R]; [contradiction|].
    rewrite (sizeOwner _ _ _ _ I) in R. pose proof R as R2. apply Nat.ltb_lt in R. rewrite R.
    eexists; eexists; split; [reflexivity|]. cbn [callersOf calleesAt instOwner funCap funGen]. rewrite (afind_snoc _ _ _ E).
    split; [|split; [rewrite <- (afind_snoc _ _ _ E); apply afind_aset_eq|]].
    + destruct I as [P1 P2 P3 P4 P5 P6 P7 P8 P9 P10]. constructor; cbn [callersOf calleesAt instOwner funCap funGen funOwner]; auto.
      * unfold akeys. rewrite map_app. now apply NoDup_app_single.
      * rewrite map_app, P4, app_length. cbn [length]. rewrite seq_app, map_app. reflexivity.
      * intros g q. rewrite <- (afind_snoc _ _ _ E), afind_aset. destruct (eq_dec g f) as [->|Ng].
        -- intro Q; injection Q as <-. cbn [snd]. rewrite nth_error_app2 by lia. rewrite Nat.sub_diag. cbn.
           rewrite callersIn_none; [reflexivity|]. intros n Hn. apply NK. apply (proj2 (P7 _ _ Hn)).
        -- intro Q. pose proof (P6 _ _ Q) as Q2. rewrite nth_error_app1; [assumption|]. apply nth_error_Some. rewrite Q2. discriminate.
      * intros n g H. destruct (P7 _ _ H). split; [assumption|]. unfold akeys in *. rewrite map_app, in_app_iff. now left.
      * intro g. unfold akeys in *. rewrite map_app, in_app_iff, P8. cbn. intuition.
      * rewrite app_length. cbn. lia.
    + repeat split; auto; try contradiction.
      * intros g q Q. rewrite <- (afind_snoc _ _ _ E), afind_aset. destruct (eq_dec g f) as [->|]; [|assumption]. congruence.
      * intros _. unfold size. cbn. rewrite app_length. cbn. lia.
Qed.

Lemma addInst_inv s es fs ns n : Inv s es fs ns ->
  let '(i, s') := addInstructionVertex n s in Inv s' es fs (n :: ns) /\ afind n (calleesAt s') = Some i
    /\ callersOf s' = callersOf s /\ funOwner s' = funOwner s /\ funCap s' = funCap s /\ funGen s' = funGen s
    /\ (forall m j, afind m (calleesAt s) = Some j -> afind m (calleesAt s') = Some j)
    /\ (In n (akeys (calleesAt s)) -> s' = s).
Proof.
  intros I. unfold addInstructionVertex. destruct (afind n (calleesAt s)) as [p|] eqn:E.
  - pose proof (afind_Some_key _ _ _ E) as K. split; [|repeat split; auto].
    destruct I as [P1 P2 P3 P4 P5 P6 P7 P8 P9 P10]. constructor; auto.
    intro g. rewrite P9. cbn. split; [auto|]. intros [<- |H]; [now apply P9|assumption].
  - pose proof (proj1 (afind_None _ _) E) as NK.
    cbn [callersOf calleesAt instOwner funCap funGen funOwner]. rewrite (afind_snoc _ _ _ E).
    split; [|split; [rewrite <- (afind_snoc _ _ _ E); apply afind_aset_eq|]].
    + destruct I as [P1 P2 P3 P4 P5 P6 P7 P8 P9 P10]. constructor; cbn [callersOf calleesAt instOwner funCap funGen funOwner]; auto.
      * unfold akeys. rewrite map_app. now apply NoDup_app_single.
      * rewrite map_app, P3, app_length. cbn [length]. rewrite seq_app. reflexivity.
      * intros g q. rewrite <- (afind_snoc _ _ _ E), afind_aset. destruct (eq_dec g n) as [->|Ng].
        -- intro Q; injection Q as <-. rewrite nth_error_app2 by lia. rewrite Nat.sub_diag. cbn.
           rewrite calleesIn_none; [reflexivity|]. intros f Hn. apply NK. apply (proj1 (P7 _ _ Hn)).
        -- intro Q. pose proof (P5 _ _ Q) as Q2. rewrite nth_error_app1; [assumption|]. apply nth_error_Some. rewrite Q2. discriminate.
      * intros m g H. destruct (P7 _ _ H). split; [|assumption]. unfold akeys in *. rewrite map_app, in_app_iff. now left.
      * intro g. unfold akeys in *. rewrite map_app, in_app_iff, P9. cbn. intuition.
    + repeat split; auto; try contradiction.
      intros g q Q. rewrite <- (afind_snoc _ _ _ E), afind_aset. destruct (eq_dec g n) as [->|]; [|assumption]. congruence.
Qed.

Lemma addEdge_inv s es fs ns n i f p : Inv s es fs ns -> afind n (calleesAt s) = Some i -> afind f (callersOf s) = Some p ->
  exists s', addEdgePtrs n i f p s = Some s' /\ Inv s' (es ++ [(n, f)]) fs ns
    /\ calleesAt s' = calleesAt s /\ callersOf s' = callersOf s /\ funCap s' = funCap s /\ funGen s' = funGen s.
Proof.
  intros I A B. unfold addEdgePtrs.
  destruct (upd_spec (fun l => l ++ [f]) _ _ _ (iVc _ _ _ _ I _ _ A)) as [io [E1 [L1 N1]]]. rewrite E1.
  destruct (funPtr _ _ _ _ _ _ I B) as [G _]. rewrite G, Nat.eqb_refl.
  destruct (upd_spec (fun l => l ++ [n]) _ _ _ (iVf _ _ _ _ I _ _ B)) as [fo [E2 [L2 N2]]]. rewrite E2.
  eexists; split; [reflexivity|]. split; [|repeat split].
  pose proof I as I0. destruct I as [P1 P2 P3 P4 P5 P6 P7 P8 P9 P10].
  constructor; cbn [callersOf calleesAt instOwner funCap funGen funOwner]; auto; try (rewrite ?L1, ?L2; assumption).
  - intros m j Hm. rewrite N1, calleesIn_app. cbn [fst snd]. destruct (j =? i) eqn:Q.
    + apply Nat.eqb_eq in Q. subst j. assert (m = n) as -> by (eapply instPtrInj; eauto). rewrite Nat.eqb_refl. reflexivity.
    + destruct (n =? m) eqn:Q2; [apply Nat.eqb_eq in Q2; subst m; rewrite A in Hm; injection Hm as ->; rewrite Nat.eqb_refl in Q; discriminate|].
      rewrite app_nil_r. now apply P5.
  - intros g q Hq. rewrite N2, callersIn_app. cbn [fst snd]. destruct (snd q =? snd p) eqn:Q.
    + apply Nat.eqb_eq in Q. assert (g = f) as -> by (eapply funPtrInj; eauto). rewrite Nat.eqb_refl. reflexivity.
    + destruct (f =? g) eqn:Q2; [apply Nat.eqb_eq in Q2; subst g; rewrite B in Hq; injection Hq as ->; rewrite Nat.eqb_refl in Q; discriminate|].
      rewrite app_nil_r. now apply P6.
  - intros m g H. apply in_app_iff in H. destruct H as [H|[H|[]]]; [now apply P7|]. injection H as <- <-.
    split; [apply (afind_Some_key _ _ _ A)|apply (afind_Some_key _ _ _ B)].
Qed.

Lemma step_inv a o s es fs ns : Inv s es fs ns -> legalOp o s ->
  exists s', step a o s = Some s' /\ Inv s' (es ++ edgeOf o) (rev (funOf o) ++ fs) (rev (instOf o) ++ ns).
Proof.
  intros I L. destruct o as [k|f|n|n f|n i f|n f p]; cbn [step edgeOf funOf instOf rev app legalOp] in *; rewrite ?app_nil_r.
  - eexists; split; [reflexivity|]. unfold reserve. destruct (k <=? funCap s) eqn:E; [assumption|].
    apply Nat.leb_gt in E. destruct L as [L|L]; [lia|].
    pose proof (sizeOwner _ _ _ _ I) as Z. destruct I as [P1 P2 P3 P4 P5 P6 P7 P8 P9 P10].
    assert (Hc : callersOf s = []) by (apply length_zero_iff_nil; exact L).
    assert (Ho : funOwner s = []) by (apply length_zero_iff_nil; lia).
    constructor; cbn [callersOf calleesAt instOwner funCap funGen funOwner]; auto; rewrite ?Hc, ?Ho; cbn; auto; try discriminate; lia.
  - destruct (addFun_inv a _ _ _ _ f I L) as [p [s' [E [I' _]]]]. rewrite E. cbn. eauto.
  - pose proof (addInst_inv _ _ _ _ n I) as Q. destruct (addInstructionVertex n s) as [i s']. cbn. eexists; split; [reflexivity|]. apply Q.
  - unfold addCallEdge. pose proof (addInst_inv _ _ _ _ n I) as Q. destruct (addInstructionVertex n s) as [i s1].
    destruct Q as [I1 [A [C [O [Cap [G _]]]]]].
    assert (R1 : room f s1) by (unfold room, getAllVertexFunctions, size in *; rewrite C, Cap; assumption).
    destruct (addFun_inv a _ _ _ _ f I1 R1) as [p [s2 [E [I2 [B [Ca _]]]]]]. rewrite E. rewrite <- Ca in A.
    destruct (addEdge_inv _ _ _ _ _ _ _ _ I2 A B) as [s3 [E3 [I3 _]]]. rewrite E3. eauto.
  - destruct L as [A R]. unfold addCallEdgeI. destruct (addFun_inv a _ _ _ _ f I R) as [p [s2 [E [I2 [B [Ca _]]]]]]. rewrite E.
    unfold getInstVertexOrNull in A. pose proof (afind_Some_key _ _ _ A) as K. rewrite <- Ca in A.
    destruct (addEdge_inv _ _ _ _ _ _ _ _ I2 A B) as [s3 [E3 [I3 _]]]. rewrite E3. eexists; split; [reflexivity|].
    destruct I3 as [P1 P2 P3 P4 P5 P6 P7 P8 P9 P10]. constructor; auto.
    intro m. rewrite P9. cbn. split; [auto|]. intros [<- |H]; [|assumption]. now apply (iN _ _ _ _ I).
  - unfold addCallEdgeF. assert (B : afind f (callersOf s) = Some p).
    { unfold addFunctionVertex in L. destruct (afind f (callersOf s)) as [q|] eqn:Q; [congruence|].
      destruct (length (funOwner s) <? funCap s); [|discriminate].
      assert (Es : s = mkCG (instOwner s) (funOwner s ++ [[]]) (funCap s) (funGen s) (calleesAt s) (aset f (funGen s, length (funOwner s)) (callersOf s))) by congruence.
      apply (f_equal (fun s => length (funOwner s))) in Es. cbn in Es. rewrite app_length in Es. cbn in Es. lia. }
    pose proof (addInst_inv _ _ _ _ n I) as Q. destruct (addInstructionVertex n s) as [i s1].
    destruct Q as [I1 [A [C _]]]. pose proof (afind_Some_key _ _ _ B) as K. rewrite <- C in B.
    destruct (addEdge_inv _ _ _ _ _ _ _ _ I1 A B) as [s3 [E3 [I3 _]]]. rewrite E3. eexists; split; [reflexivity|].
    destruct I3 as [P1 P2 P3 P4 P5 P6 P7 P8 P9 P10]. constructor; auto.
    intro m. rewrite P8. cbn. split; [auto|]. intros [<- |H]; [|assumption]. now apply (iF _ _ _ _ I).
Qed.

Lemma run_inv a : forall ops s es fs ns, Inv s es fs ns -> legal a ops s ->
  exists s' fs' ns', run a ops s = Some s' /\ Inv s' (es ++ edgesOf ops) fs' ns'
    /\ (forall f, In f fs' <-> In f fs \/ In f (flat_map funOf ops)) /\ (forall n, In n ns' <-> In n ns \/ In n (flat_map instOf ops)).
Proof.
  induction ops as [|o ops IH]; intros s es fs ns I L.
  - exists s, fs, ns. cbn. rewrite app_nil_r. split; [reflexivity|]. split; [assumption|]. split; intro; tauto.
  - cbn [legal] in L. destruct L as [L1 L2]. destruct (step_inv a o _ _ _ _ I L1) as [s1 [E I1]].
    destruct (IH _ _ _ _ I1 (L2 _ E)) as [s' [fs' [ns' [R [I' [HF HN]]]]]].
    exists s', fs', ns'. cbn [run edgesOf flat_map]. rewrite E. split; [assumption|]. fold (edgesOf ops). rewrite app_assoc. split; [assumption|].
    split; [intro f; rewrite HF|intro n; rewrite HN]; rewrite !in_app_iff, <- in_rev; tauto.
Qed.

Lemma inv_callees s es fs ns n : Inv s es fs ns -> getCalleesOfCallAt n s = Some (calleesIn es n).
Proof.
  intro I. unfold getCalleesOfCallAt. destruct (afind n (calleesAt s)) as [i|] eqn:E; [apply (iVc _ _ _ _ I _ _ E)|].
  rewrite calleesIn_none; [reflexivity|]. intros f H. apply (proj1 (afind_None _ _) E). apply (proj1 (iE _ _ _ _ I _ _ H)).
Qed.
Lemma inv_callers s es fs ns f : Inv s es fs ns -> getCallersOf f s = Some (callersIn es f).
Proof.
  intro I. unfold getCallersOf. destruct (afind f (callersOf s)) as [p|] eqn:E.
  - unfold derefF. rewrite (proj1 (funPtr _ _ _ _ _ _ I E)), Nat.eqb_refl. apply (iVf _ _ _ _ I _ _ E).
  - rewrite callersIn_none; [reflexivity|]. intros n H. apply (proj1 (afind_None _ _) E). apply (proj2 (iE _ _ _ _ I _ _ H)).
Qed.

Lemma occ_inverse es n f : occ f (calleesIn es n) = occ n (callersIn es f).
Proof.
  unfold occ, calleesIn, callersIn. induction es as [|[a b] es IH]; [reflexivity|]. cbn [filter fst snd].
  destruct (a =? n) eqn:A, (b =? f) eqn:B; cbn [map fst snd count_occ]; rewrite ?IH;
    try (apply Nat.eqb_eq in A; subst); try (apply Nat.eqb_eq in B; subst); try apply Nat.eqb_neq in A; try apply Nat.eqb_neq in B;
    repeat match goal with |- context [Nat.eq_dec ?x ?y] => destruct (Nat.eq_dec x y) end; congruence.
Qed.

(** ** a capacity that suffices *)
Definition simple (o : op) : Prop := match o with AddFun _ | AddInst _ | Edge _ _ => True | _ => False end.

Lemma incl_len (l m : list nat) : NoDup l -> incl l m -> length l <= length (nodup Nat.eq_dec m).
Proof. intros ND I. apply NoDup_incl_length; [assumption|]. intros x Hx. apply nodup_In. auto. Qed.

Lemma legal_simple a k allf : forall ops s es fs ns, Inv s es fs ns -> (forall o, In o ops -> simple o) ->
  incl fs allf -> incl (flat_map funOf ops) allf -> length (nodup Nat.eq_dec allf) <= k -> funCap s = k -> legal a ops s.
Proof.
  induction ops as [|o ops IH]; intros s es fs ns I Sm H1 H2 K C; [exact Logic.I|]. cbn [legal].
  assert (Lg : legalOp o s).
  { pose proof (Sm o (or_introl eq_refl)) as So. 
    assert (Rm : forall f, In f allf -> room f s).
    { intros f Hf. unfold room. destruct (in_dec Nat.eq_dec f (getAllVertexFunctions s)); [now left|]. right.
      apply Nat.lt_le_trans with (length (nodup Nat.eq_dec allf)); [|lia].
      assert (Q : length (f :: akeys (callersOf s)) <= length (nodup Nat.eq_dec allf)).
      { apply incl_len; [constructor; [assumption|apply (iNDf _ _ _ _ I)]|]. intros x [<- |Hx]; [assumption|]. apply H1. now apply (iF _ _ _ _ I). }
      cbn in Q. unfold akeys in Q. rewrite map_length in Q. unfold size. lia. }
    destruct o; cbn [legalOp]; try (now elim So); try exact Logic.I; apply Rm; apply H2; cbn; now left. }
  split; [assumption|]. intros s' E. destruct (step_inv a o _ _ _ _ I Lg) as [s1 [E1 I1]]. rewrite E in E1. injection E1 as <-.
  eapply IH; [exact I1| | | |exact K|].
  - intros o' Ho. apply Sm. now right.
  - intros x Hx. apply in_app_iff in Hx. rewrite <- in_rev in Hx. destruct Hx as [Hx|Hx]; [apply H2; cbn; apply in_app_iff; now left|auto].
  - intros x Hx. apply H2. cbn. apply in_app_iff. now right.
  - rewrite <- C. pose proof (Sm o (or_introl eq_refl)) as So. destruct o as [?|f|n|n f| |]; try (now elim So); cbn [step] in E.
    + destruct (addFun_inv a _ _ _ _ f I Lg) as [p [s2 [E2 [_ [_ [_ [_ [Cp _]]]]]]]]. rewrite E2 in E. cbn in E. congruence.
    + pose proof (addInst_inv _ _ _ _ n I) as Q. destruct (addInstructionVertex n s) as [i s2]. cbn in E. destruct Q as [_ [_ [_ [_ [Cp _]]]]]. congruence.
    + unfold addCallEdge in E. pose proof (addInst_inv _ _ _ _ n I) as Q. destruct (addInstructionVertex n s) as [i s2].
      destruct Q as [J1 [A [Cc [O [Cp _]]]]].
      assert (R1 : room f s2) by (unfold room, getAllVertexFunctions, size in *; rewrite Cc, Cp; assumption).
      destruct (addFun_inv a _ _ _ _ f J1 R1) as [p [s3 [E2 [J2 [B [Ca [_ [Cp2 _]]]]]]]]. rewrite E2 in E. rewrite <- Ca in A.
      destruct (addEdge_inv _ _ _ _ _ _ _ _ J2 A B) as [s4 [E3 [_ [_ [_ [Cp3 _]]]]]]. rewrite E3 in E. congruence.
Qed.

(** ** pointers are stable *)
Lemma step_stable a o s s' n i : step a o s = Some s' -> afind n (calleesAt s) = Some i -> afind n (calleesAt s') = Some i.
Proof.
  assert (HI : forall m t, afind n (calleesAt t) = Some i -> afind n (calleesAt (snd (addInstructionVertex m t))) = Some i).
  { intros m t H. unfold addInstructionVertex. destruct (afind m (calleesAt t)) eqn:E; [assumption|]. cbn. rewrite afind_aset.
    destruct (eq_dec n m); [congruence|assumption]. }
  assert (HF : forall f t p t', addFunctionVertex a f t = Some (p, t') -> calleesAt t' = calleesAt t).
  { intros f t p t'. unfold addFunctionVertex. destruct (afind f (callersOf t)); [congruence|].
    destruct (_ <? _); [intro E; injection E as _ <-; reflexivity|]. destruct a; [discriminate|]. intro E; injection E as _ <-; reflexivity. }
  assert (HE : forall m j f p t t', addEdgePtrs m j f p t = Some t' -> calleesAt t' = calleesAt t).
  { intros m j f p t t'. unfold addEdgePtrs. destruct (upd _ _ _); [|discriminate]. destruct (_ =? _); [|discriminate].
    destruct (upd _ _ _); [|discriminate]. intro E; injection E as <-; reflexivity. }
  destruct o as [k|f|m|m f|m j f|m f p]; cbn [step]; intros E H.
  - injection E as <-. unfold reserve. destruct (_ <=? _); assumption.
  - destruct (addFunctionVertex a f s) as [[p t]|] eqn:Q; [|discriminate]. injection E as <-. cbn. now rewrite (HF _ _ _ _ Q).
  - injection E as <-. now apply HI.
  - unfold addCallEdge in E. specialize (HI m s H). destruct (addInstructionVertex m s) as [j t].
    destruct (addFunctionVertex a f t) as [[p t']|] eqn:Q; [|discriminate]. rewrite (HE _ _ _ _ _ _ E), (HF _ _ _ _ Q). exact HI.
  - unfold addCallEdgeI in E. destruct (addFunctionVertex a f s) as [[p t]|] eqn:Q; [|discriminate]. now rewrite (HE _ _ _ _ _ _ E), (HF _ _ _ _ Q).
  - unfold addCallEdgeF in E. specialize (HI m s H). destruct (addInstructionVertex m s) as [j t]. rewrite (HE _ _ _ _ _ _ E). exact HI.
Qed.
Lemma run_stable a ops : forall s s' n i, run a ops s = Some s' -> afind n (calleesAt s) = Some i -> afind n (calleesAt s') = Some i.
Proof.
  induction ops as [|o ops IH]; intros s s' n i E H; cbn [run] in E; [congruence|].
  destruct (step a o s) as [t|] eqn:Q; [|discriminate]. eapply IH; [exact E|]. eapply step_stable; eauto.
Qed.

(** ** JSON round trip *)
Definition conv (fid : nat -> string) (iid : nat -> N) (e : nat * list nat) : string * list N := (fid (fst e), map (fun n => u32 (iid n)) (snd e)).

Lemma toData_map fid iid ents : NoDup (map (fun e => fid (fst e)) ents) -> toData fid iid ents = map (conv fid iid) ents.
Proof.
  unfold toData. intro ND.
  assert (G : forall l acc, NoDup (akeys acc ++ map (fun e => fid (fst e)) l) ->
    fold_left (fun d e => let '(f, cs) := e in aset (fid f) (afindd [] (fid f) d ++ map (fun n => u32 (iid n)) cs) d) l acc = acc ++ map (conv fid iid) l).
  { induction l as [|[f cs] l IH]; intros acc H; [now rewrite app_nil_r|]. cbn [fold_left map].
    assert (Nf : afind (fid f) acc = None).
    { apply afind_None. intro K. cbn in H. apply NoDup_remove_2 in H. apply H. apply in_app_iff. now left. }
    unfold afindd. rewrite Nf. cbn [app]. rewrite (afind_snoc _ _ _ Nf). rewrite IH.
    - rewrite <- app_assoc. reflexivity.
    - unfold akeys in *. rewrite map_app, <- app_assoc. exact H. }
  rewrite G; [reflexivity|exact ND].
Qed.

Lemma u32_idem x : u32 (u32 x) = u32 x.
Proof. unfold u32. apply N.mod_mod. discriminate. Qed.

Lemma fromJson_map m : NoDup (map fst m) ->
  fromJson (DObj m) = Some (map (fun e => (fst e, match snd e with JArr l => map u32 l | JNull => [] end)) m).
Proof.
  intro ND. cbn [fromJson]. f_equal.
  assert (G : forall l acc, NoDup (akeys acc ++ map fst l) ->
    fold_left (fun d e => aset (fst e) (match snd e with JArr l => map u32 l | JNull => [] end) d) l acc
    = acc ++ map (fun e => (fst e, match snd e with JArr l => map u32 l | JNull => [] end)) l).
  { induction l as [|[f v] l IH]; intros acc H; [now rewrite app_nil_r|]. cbn [fold_left map].
    assert (Nf : afind f acc = None).
    { apply afind_None. intro K. cbn in H. apply NoDup_remove_2 in H. apply H. apply in_app_iff. now left. }
    cbn [fst]. rewrite (afind_snoc _ _ _ Nf), IH.
    - rewrite <- app_assoc. reflexivity.
    - unfold akeys in *. rewrite map_app, <- app_assoc. exact H. }
  rewrite G; [reflexivity|exact ND].
Qed.

Section DeserP.
  Variable a : bool.
  Variable getF : string -> nat.
  Variable getI : N -> nat.
  Definition opsOf (e : string * list N) : list op :=
    if getF (fst e) =? 0 then [] else AddFun (getF (fst e)) :: map (fun id => Edge (getI id) (getF (fst e))) (snd e).

  Lemma run_app x y s : run a (x ++ y) s = match run a x s with Some t => run a y t | None => None end.
  Proof. revert s. induction x as [|o x IH]; intro s; [reflexivity|]. cbn [app run]. destruct (step a o s); [apply IH|reflexivity]. Qed.

  Lemma addAll_run f ids s : addAll a getI f ids (Some s) = run a (map (fun id => Edge (getI id) f) ids) s.
  Proof.
    revert s. unfold addAll. induction ids as [|i ids IH]; intro s; [reflexivity|]. cbn [fold_left map run step].
    destruct (addCallEdge a (getI i) f s) as [t|]; [apply IH|]. clear. induction ids; cbn; auto.
  Qed.
  Lemma deserEntry_run e s : deserEntry a getF getI (Some s) e = run a (opsOf e) s.
  Proof.
    unfold deserEntry, opsOf. destruct (getF (fst e) =? 0); [reflexivity|]. cbn [run step].
    destruct (addFunctionVertex a (getF (fst e)) s) as [[p t]|]; [cbn; apply addAll_run|reflexivity].
  Qed.
  Lemma deser_run d : deserialize a getF getI d = run a (Reserve (length d) :: flat_map opsOf d) emptyCG.
  Proof.
    unfold deserialize. cbn [run step].
    generalize (reserve (length d) emptyCG). induction d as [|e d IH]; intro s; [reflexivity|]. cbn [fold_left flat_map].
    rewrite run_app, deserEntry_run. destruct (run a (opsOf e) s) as [t|]; [apply IH|].
    clear. induction d as [|e d IH]; [reflexivity|]. exact IH.
  Qed.

  Lemma simple_ops d o : In o (flat_map opsOf d) -> simple o.
  Proof.
    intro H. apply in_flat_map in H. destruct H as [e [_ H]]. unfold opsOf in H. destruct (_ =? 0); [contradiction|].
    destruct H as [<- |H]; [exact I|]. apply in_map_iff in H. destruct H as [id [<- _]]. exact I.
  Qed.
  Lemma funs_ops d : incl (flat_map funOf (flat_map opsOf d)) (map (fun e => getF (fst e)) d).
  Proof.
    intros f H. apply in_flat_map in H. destruct H as [o [Ho Hf]]. apply in_flat_map in Ho. destruct Ho as [e [He Ho]].
    apply in_map_iff. exists e. split; [|assumption]. unfold opsOf in Ho. destruct (_ =? 0); [contradiction|].
    destruct Ho as [<- |Ho]; [destruct Hf as [E|[]]; assumption|]. apply in_map_iff in Ho. destruct Ho as [id [<- _]]. destruct Hf as [E|[]]; assumption.
  Qed.
  Lemma funs_ops_iff d f : In f (flat_map funOf (flat_map opsOf d)) <-> exists e, In e d /\ getF (fst e) = f /\ f <> 0.
  Proof.
    split.
    - intro H. apply in_flat_map in H. destruct H as [o [Ho Hf]]. apply in_flat_map in Ho. destruct Ho as [e [He Ho]].
      exists e. split; [assumption|]. unfold opsOf in Ho. destruct (getF (fst e) =? 0) eqn:Z; [contradiction|]. apply Nat.eqb_neq in Z.
      assert (getF (fst e) = f) as <-; [|auto].
      destruct Ho as [<- |Ho]; [destruct Hf as [E|[]]; assumption|]. apply in_map_iff in Ho. destruct Ho as [id [<- _]]. destruct Hf as [E|[]]; assumption.
    - intros [e [He [<- Nz]]]. apply in_flat_map. exists (AddFun (getF (fst e))). split; [|now left].
      apply in_flat_map. exists e. split; [assumption|]. unfold opsOf. apply Nat.eqb_neq in Nz. rewrite Nz. now left.
  Qed.

  (** deserialisation never exceeds the reserved capacity, and yields the listed edges *)
  Lemma deser_inv d : exists s fs ns, deserialize a getF getI d = Some s /\ Inv s (edgesOf (flat_map opsOf d)) fs ns
    /\ (forall f, In f fs <-> exists e, In e d /\ getF (fst e) = f /\ f <> 0).
  Proof.
    rewrite deser_run.
    assert (L : legal a (Reserve (length d) :: flat_map opsOf d) emptyCG).
    { cbn [legal]. split; [right; reflexivity|]. intros s' E. destruct (step_inv a (Reserve (length d)) _ _ _ _ inv_empty (or_intror eq_refl)) as [s1 [E1 I1]].
      rewrite E in E1. injection E1 as <-. cbn [edgeOf funOf instOf rev app] in I1.
      eapply (legal_simple a (length d) (map (fun e => getF (fst e)) d)); [exact I1|apply simple_ops|intros x []|apply funs_ops| |].
      - apply Nat.le_trans with (length (map (fun e => getF (fst e)) d)); [|now rewrite map_length].
        apply NoDup_incl_length; [apply NoDup_nodup|]. intros x Hx. now apply nodup_In in Hx.
      - cbn [step] in E. injection E as <-. unfold reserve. cbn [funCap emptyCG]. destruct (length d <=? 0) eqn:Z; [|reflexivity].
        apply Nat.leb_le in Z. cbn. lia. }
    destruct (run_inv a _ _ _ _ _ inv_empty L) as [s' [fs' [ns' [R [I' [HF HN]]]]]].
    exists s', fs', ns'. split; [exact R|]. split; [exact I'|]. intro f. rewrite HF. cbn [flat_map funOf app].
    rewrite funs_ops_iff. split; [intros [[]|H]; exact H|auto].
  Qed.

  Lemma edgesOf_app x y : edgesOf (x ++ y) = edgesOf x ++ edgesOf y.
  Proof. unfold edgesOf. apply flat_map_app. Qed.
  Lemma edges_entry e : getF (fst e) <> 0 -> edgesOf (opsOf e) = map (fun id => (getI id, getF (fst e))) (snd e).
  Proof.
    intro Nz. unfold opsOf. apply Nat.eqb_neq in Nz. rewrite Nz. cbn. induction (snd e) as [|i r IH]; [reflexivity|]. cbn. f_equal. exact IH.
  Qed.
  Lemma callersIn_app2 x y f : callersIn (x ++ y) f = callersIn x f ++ callersIn y f.
  Proof. unfold callersIn. now rewrite filter_app, map_app. Qed.

  Lemma callersIn_entry (ids : list N) g f : callersIn (map (fun id => (getI id, g)) ids) f = if g =? f then map getI ids else [].
  Proof.
    unfold callersIn. induction ids as [|i r IH]; cbn; [now destruct (g =? f)|]. destruct (g =? f); cbn; [now rewrite IH|assumption].
  Qed.

  Lemma callers_deser d f : (forall e, In e d -> getF (fst e) <> 0) -> NoDup (map (fun e => getF (fst e)) d) ->
    callersIn (edgesOf (flat_map opsOf d)) f =
    match find (fun e => getF (fst e) =? f) d with Some e => map getI (snd e) | None => [] end.
  Proof.
    induction d as [|e d IH]; intros Nz ND; [reflexivity|]. cbn [flat_map find]. rewrite edgesOf_app, callersIn_app2, edges_entry by (apply Nz; now left).
    rewrite callersIn_entry. inversion ND as [|x l Hn HD]; subst. destruct (getF (fst e) =? f) eqn:E.
    - rewrite IH; [|intros e' He; apply Nz; now right|assumption].
      apply Nat.eqb_eq in E. destruct (find (fun e0 => getF (fst e0) =? f) d) as [e'|] eqn:Fd; [|now rewrite app_nil_r].
      apply find_some in Fd. destruct Fd as [Hin Q]. apply Nat.eqb_eq in Q. elim Hn. apply in_map_iff. exists e'. split; congruence.
    - apply IH; [intros e' He; apply Nz; now right|assumption].
  Qed.
End DeserP.

Lemma find_perm {A} (p : A -> bool) l l' x : Permutation l l' -> (forall a b, In a l -> In b l -> p a = true -> p b = true -> a = b) ->
  find p l = Some x -> find p l' = Some x.
Proof.
  intros P U F. apply find_some in F. destruct F as [Hin Hp].
  destruct (find p l') as [y|] eqn:F2.
  - apply find_some in F2. destruct F2 as [H2 P2]. f_equal. apply U; auto. now apply (Permutation_in _ (Permutation_sym P)).
  - assert (p x = false) by (eapply find_none; [exact F2|now apply (Permutation_in _ P)]). congruence.
Qed.

Lemma entries_inv s es fs ns : Inv s es fs ns -> entries s = map (fun f => (f, Some (callersIn es f))) (getAllVertexFunctions s).
Proof.
  intro I. unfold entries, getAllVertexFunctions, akeys. rewrite map_map. apply map_ext_in. intros [f p] H. cbn [fst snd].
  assert (E : afind f (callersOf s) = Some p) by (apply In_afind; [apply (iNDf _ _ _ _ I)|assumption]).
  unfold derefF. rewrite (proj1 (funPtr _ _ _ _ _ _ I E)), Nat.eqb_refl. now rewrite (iVf _ _ _ _ I _ _ E).
Qed.

Lemma NoDup_map_inj {A B} (g : A -> B) l : (forall x y, In x l -> In y l -> g x = g y -> x = y) -> NoDup l -> NoDup (map g l).
Proof.
  intros Inj ND. induction ND as [|x l Hx ND IH]; [constructor|]. cbn. constructor.
  - intro H. apply in_map_iff in H. destruct H as [y [E Hy]]. apply Hx. rewrite (Inj x y); auto; [now left|now right].
  - apply IH. intros; apply Inj; auto; now right.
Qed.

Lemma roundtrip a getF getI fid iid s es fs ns ents m m' d d' :
  Inv s es fs ns ->
  (forall f, In f (getAllVertexFunctions s) -> f <> 0 /\ getF (fid f) = f) ->
  (forall n f, In (n, f) es -> getI (u32 (iid n)) = n) ->
  Permutation (map (fun e => (fst e, Some (snd e))) ents) (entries s) ->
  toJson (toData fid iid ents) = DObj m -> Permutation m m' -> fromJson (DObj m') = Some d -> Permutation d d' ->
  exists s' es' fs' ns', deserialize a getF getI d' = Some s' /\ Inv s' es' fs' ns' /\
    (forall f, callersIn es' f = callersIn es f) /\ (forall f, In f fs' <-> In f fs).
Proof.
  intros I HF HI Pe Hj Pm Hd Pd.
  rewrite (entries_inv _ _ _ _ I) in Pe.
  assert (Hent : forall e, In e ents <-> In (fst e) (getAllVertexFunctions s) /\ snd e = callersIn es (fst e)).
  { intros [f cs]. cbn [fst snd]. split.
    - intro H. assert (Q : In (f, Some cs) (map (fun f0 => (f0, Some (callersIn es f0))) (getAllVertexFunctions s))).
      { apply (Permutation_in _ Pe). apply in_map_iff. exists (f, cs). split; [reflexivity|assumption]. }
      apply in_map_iff in Q. destruct Q as [g [E Hg]]. injection E as -> <-. split; [assumption|reflexivity].
    - intros [Hf ->]. assert (Q : In (f, Some (callersIn es f)) (map (fun e => (fst e, Some (snd e))) ents)).
      { apply (Permutation_in _ (Permutation_sym Pe)). apply in_map_iff. exists f. auto. }
      apply in_map_iff in Q. destruct Q as [[g cs] [E Hg]]. cbn in E. injection E as -> ->. assumption. }
  assert (NDf : NoDup (map fst ents)).
  { apply (Permutation_NoDup (l := getAllVertexFunctions s)); [|apply (iNDf _ _ _ _ I)].
    apply Permutation_sym. apply (Permutation_map fst) in Pe. rewrite !map_map in Pe. cbn [fst] in Pe. rewrite map_id in Pe. exact Pe. }
  assert (NDid : NoDup (map (fun e => fid (fst e)) ents)).
  { rewrite <- (map_map fst fid). apply NoDup_map_inj; [|assumption]. intros x y Hx Hy E.
    apply in_map_iff in Hx. destruct Hx as [ex [<- Hx]]. apply in_map_iff in Hy. destruct Hy as [ey [<- Hy]].
    apply Hent in Hx. apply Hent in Hy. rewrite <- (proj2 (HF _ (proj1 Hx))), <- (proj2 (HF _ (proj1 Hy))), E. reflexivity. }
  rewrite (toData_map _ _ _ NDid) in Hj.
  assert (Hm : m = map (fun e => (fst e, match snd e with [] => JNull | l => JArr l end)) (map (conv fid iid) ents)).
  { unfold toJson in Hj. destruct (map (conv fid iid) ents); [discriminate|]. now injection Hj as <-. }
  assert (NDm : NoDup (map fst m)) by (rewrite Hm, !map_map; exact NDid).
  assert (NDm' : NoDup (map fst m')) by (apply (Permutation_NoDup (l := map fst m)); [apply Permutation_map; assumption|assumption]).
  rewrite (fromJson_map _ NDm') in Hd. injection Hd as Hd.
  assert (Pc : Permutation (map (conv fid iid) ents) d').
  { apply perm_trans with d; [|assumption]. rewrite <- Hd.
    apply perm_trans with (map (fun e => (fst e, match snd e with JArr l => map u32 l | JNull => [] end)) m).
    - rewrite Hm, !map_map. apply Permutation_refl'. apply map_ext. intros [f cs]. unfold conv. cbn [fst snd].
      f_equal. destruct cs as [|c cs]; [reflexivity|]. cbn. rewrite u32_idem. f_equal. rewrite map_map. apply map_ext. intro x. now rewrite u32_idem.
    - now apply Permutation_map. }
  assert (Hd' : forall e, In e d' <-> exists f, In f (getAllVertexFunctions s) /\ e = conv fid iid (f, callersIn es f)).
  { intro e. split.
    - intro H. apply (Permutation_in _ (Permutation_sym Pc)) in H. apply in_map_iff in H. destruct H as [[f cs] [<- H]]. apply Hent in H. cbn in H.
      exists f. split; [apply H|]. destruct H as [_ ->]. reflexivity.
    - intros [f [Hf ->]]. apply (Permutation_in _ Pc). apply in_map. apply Hent. auto. }
  destruct (deser_inv a getF getI d') as [s' [fs' [ns' [E [I' HF']]]]].
  exists s', (edgesOf (flat_map (opsOf getF getI) d')), fs', ns'. split; [exact E|]. split; [exact I'|].
  assert (Nz : forall e, In e d' -> getF (fst e) <> 0).
  { intros e He. apply Hd' in He. destruct He as [f [Hf ->]]. cbn [conv fst]. destruct (HF f Hf) as [Z ->]. exact Z. }
  assert (NDg : NoDup (map (fun e => getF (fst e)) d')).
  { apply (Permutation_NoDup (l := map (fun e => getF (fst e)) (map (conv fid iid) ents))); [now apply Permutation_map|].
    rewrite map_map. cbn [conv fst]. rewrite (map_ext_in _ fst); [assumption|]. intros e He. apply Hent in He. apply (HF _ (proj1 He)). }
  split.
  - intro f. rewrite callers_deser by assumption. destruct (in_dec Nat.eq_dec f (getAllVertexFunctions s)) as [Hf|Hf].
    + assert (Hin : In (conv fid iid (f, callersIn es f)) d') by (apply Hd'; eauto).
      destruct (find (fun e => getF (fst e) =? f) d') as [e|] eqn:Fd.
      * apply find_some in Fd. destruct Fd as [He Q]. apply Nat.eqb_eq in Q. apply Hd' in He. destruct He as [g [Hg ->]].
        cbn [conv fst] in Q. rewrite (proj2 (HF g Hg)) in Q. subst g. cbn [conv snd]. rewrite map_map.
        rewrite <- (map_id (callersIn es f)) at 2. apply map_ext_in. intros n Hn. apply (HI n f).
        unfold callersIn in Hn. apply in_map_iff in Hn. destruct Hn as [[x y] [<- Hn]]. apply filter_In in Hn. destruct Hn as [Hn Q].
        cbn in Q. apply Nat.eqb_eq in Q. subst y. exact Hn.
      * pose proof (find_none _ _ Fd _ Hin) as Q. cbn [conv fst] in Q. rewrite (proj2 (HF f Hf)), Nat.eqb_refl in Q. discriminate.
    + rewrite callersIn_none; [|intros n Hn; apply Hf; apply (proj2 (iE _ _ _ _ I _ _ Hn))].
      destruct (find (fun e => getF (fst e) =? f) d') as [e|] eqn:Fd; [|reflexivity].
      apply find_some in Fd. destruct Fd as [He Q]. apply Nat.eqb_eq in Q. apply Hd' in He. destruct He as [g [Hg ->]].
      cbn [conv fst] in Q. rewrite (proj2 (HF g Hg)) in Q. subst g. contradiction.
  - intro f. rewrite HF', <- (iF _ _ _ _ I). split.
    + intros [e [He [<- _]]]. apply Hd' in He. destruct He as [g [Hg ->]]. cbn [conv fst]. rewrite (proj2 (HF g Hg)). exact Hg.
    + intro Hf. exists (conv fid iid (f, callersIn es f)). split; [apply Hd'; eauto|]. cbn [conv fst]. split; apply (HF f Hf).
Qed.

Lemma callees_perm es es' n : (forall f, callersIn es' f = callersIn es f) -> Permutation (calleesIn es' n) (calleesIn es n).
Proof.
  intro H. apply (Permutation_count_occ Nat.eq_dec). intro f. change (occ f (calleesIn es' n) = occ f (calleesIn es n)). now rewrite !occ_inverse, H.
Qed.
