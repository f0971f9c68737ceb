From Coq Require Import List Bool NArith Lia.
From Verif Require Import Assoc EquivClassMapModel EquivClassMapProofs FlowCacheModel FlowCacheSpec.
Import ListNotations.
Open Scope N_scope.

Lemma pack_val a b : a < 2 ^ 32 -> b < 2 ^ 32 -> pack a b = a * 2 ^ 32 + b.
Proof.
  intros Ha Hb. unfold pack. rewrite N.shiftl_mul_pow2.
  assert (Hm : a * 2 ^ 32 < 2 ^ 64) by (change (2 ^ 64) with (2 ^ 32 * 2 ^ 32); apply N.mul_lt_mono_pos_r; [reflexivity|auto]).
  rewrite (N.mod_small (a * 2 ^ 32)) by auto.
  assert (E : N.lor (a * 2 ^ 32) b = a * 2 ^ 32 + b).
  { rewrite <- N.shiftl_mul_pow2. symmetry. rewrite <- N.lxor_lor.
    - apply N.add_nocarry_lxor. apply N.bits_inj. intros i. rewrite N.land_spec, N.bits_0.
      destruct (N.lt_ge_cases i 32).
      + now rewrite N.shiftl_spec_low.
      + rewrite andb_comm. rewrite <- (N.mod_small b (2 ^ 32)) by auto. now rewrite N.mod_pow2_bits_high.
    - apply N.bits_inj. intros i. rewrite N.land_spec, N.bits_0.
      destruct (N.lt_ge_cases i 32).
      + now rewrite N.shiftl_spec_low.
      + rewrite andb_comm. rewrite <- (N.mod_small b (2 ^ 32)) by auto. now rewrite N.mod_pow2_bits_high. }
  rewrite E. apply N.mod_small.
  change (2 ^ 64) with (2 ^ 32 * 2 ^ 32).
  assert (a + 1 <= 2 ^ 32) by lia.
  assert ((a + 1) * 2 ^ 32 <= 2 ^ 32 * 2 ^ 32) by (apply N.mul_le_mono_r; auto). lia.
Qed.

Lemma pack_inj a b c d : a < 2 ^ 32 -> b < 2 ^ 32 -> c < 2 ^ 32 -> d < 2 ^ 32 ->
  pack a b = pack c d -> a = c /\ b = d.
Proof.
  intros Ha Hb Hc Hd. rewrite !pack_val by auto. intros E.
  apply N.div_mod_unique with (b := 2 ^ 32); auto. lia.
Qed.

Section P.
  Context {Nd Fn Fc FF EF K : Type}.
  Context `{EqDec Nd} `{EqDec Fn} `{EqDec Fc} `{EqDec K}.
  Variable efeqb : EF -> EF -> bool.
  Variable P : problem Nd Fn Fc FF EF.
  Variable autoAddZero : bool.
  Variable zeroed : FF -> FF.
  Variable nodeId : Nd -> K + N.
  Variable factId : Fc -> option K.
  Variable calleesOf : Nd -> list Fn.
  Hypothesis eq_refl' : forall e, efeqb e e = true.
  Hypothesis node_inj : forall n n', nodeId n = nodeId n' -> n = n'.
  Hypothesis fact_inj : forall d d', factId d = factId d' -> factId d <> None -> d = d'.
  Hypothesis node_uniform : (forall n, exists k, nodeId n = inl k) \/
                            (forall n, exists i, nodeId n = inr i /\ i < 2 ^ 32).
  (** fewer than 2^32 values *)
  Variable U : list K.
  Hypothesis U_node : forall n k, nodeId n = inl k -> In k U.
  Hypothesis U_fact : forall d k, factId d = Some k -> In k U.
  Hypothesis U_small : N.of_nat (length U) < 2 ^ 32.

  Notation cache := (cache Nd Fn Fc FF EF K).

  Definition compOK (m : list (K * N)) : Prop :=
    NoDup (akeys m) /\ incl (akeys m) U /\
    forall i k x, nth_error m i = Some (k, x) -> x = N.of_nat i + 1.

  Definition ext (m m' : list (K * N)) : Prop :=
    forall k i, afind k m = Some i -> afind k m' = Some i.

  Lemma compOK_len m : compOK m -> N.of_nat (length m) < 2 ^ 32.
  Proof.
    intros (H1' & H2' & _). pose proof (NoDup_incl_length H1' H2') as Hl.
    unfold akeys in Hl. rewrite map_length in Hl. lia.
  Qed.

  Lemma compOK_small m k i : compOK m -> afind k m = Some i -> i < 2 ^ 32.
  Proof.
    intros Hm E. pose proof (compOK_len m Hm). destruct Hm as (_ & _ & Hm).
    apply afind_In, In_nth_error in E as (j & E). rewrite (Hm _ _ _ E).
    assert (j < length m)%nat by (apply nth_error_Some; congruence). lia.
  Qed.

  Lemma compOK_inj m k k' i : compOK m -> afind k m = Some i -> afind k' m = Some i -> k = k'.
  Proof.
    intros (_ & _ & Hm) E E'.
    apply afind_In, In_nth_error in E as (j & E). apply afind_In, In_nth_error in E' as (j' & E').
    pose proof (Hm _ _ _ E). pose proof (Hm _ _ _ E'). assert (j = j') by lia. subst. congruence.
  Qed.

  Lemma ext_refl m : ext m m.
  Proof. intros k i; auto. Qed.
  Lemma ext_trans a b c : ext a b -> ext b c -> ext a c.
  Proof. intros A B k i E; auto. Qed.

  Lemma afind_app_new k i (m : list (K * N)) : afind k m = None -> afind k (m ++ [(k, i)]) = Some i.
  Proof.
    induction m as [|[k' j] m IH]; cbn; [destruct (eq_dec k k); congruence|].
    destruct (eq_dec k k'); [discriminate|auto].
  Qed.
  Lemma afind_app_old k k' i j (m : list (K * N)) : afind k m = Some j -> afind k (m ++ [(k', i)]) = Some j.
  Proof. induction m as [|[a b] m IH]; cbn; [discriminate|]. destruct (eq_dec k a); auto. Qed.

  Lemma compressV_ok k m i m' : compOK m -> In k U -> compressV k m = (i, m') ->
    compOK m' /\ ext m m' /\ afind k m' = Some i.
  Proof.
    intros Hm Hk. unfold compressV. destruct (afind k m) eqn:E; intros [= <- <-].
    - split; auto. split; auto using ext_refl.
    - assert (Hn : N.of_nat (length m) + 1 < 2 ^ 32).
      { assert (Hl : (length (k :: akeys m) <= length U)%nat).
        { apply NoDup_incl_length.
          - constructor; [now apply afind_None|apply Hm].
          - intros x [<-|Hx]; auto. now apply Hm. }
        cbn in Hl. unfold akeys in Hl. rewrite map_length in Hl. lia. }
      rewrite N.mod_small by auto. split; [|split].
      + destruct Hm as (H1' & H2' & H3'). split; [|split].
        * unfold akeys. rewrite map_app. cbn. apply NoDup_app_single; auto. now apply afind_None.
        * unfold akeys. rewrite map_app. intros x Hx. apply in_app_iff in Hx as [Hx|[<-|[]]]; auto.
        * intros j k' x Hj. destruct (PeanoNat.Nat.lt_ge_cases j (length m)).
          -- rewrite nth_error_app1 in Hj by auto. eauto.
          -- rewrite nth_error_app2 in Hj by auto. destruct (j - length m)%nat eqn:Ej.
             ++ cbn in Hj. injection Hj as <- <-. lia.
             ++ cbn in Hj. destruct n; discriminate.
      + intros x j Hx. now apply afind_app_old.
      + now apply afind_app_new.
  Qed.

  Definition nid (m : list (K * N)) (n : Nd) : option N :=
    match nodeId n with inl k => afind k m | inr i => Some i end.

  Lemma nid_ext m m' n a : ext m m' -> nid m n = Some a -> nid m' n = Some a.
  Proof. unfold nid. intros E. destruct (nodeId n); auto. Qed.
  Lemma nid_small m n a : compOK m -> nid m n = Some a -> a < 2 ^ 32.
  Proof.
    unfold nid. intros Hm. destruct node_uniform as [Hu|Hu]; destruct (Hu n) as (k & Hk).
    - rewrite Hk. now apply compOK_small.
    - destruct Hk as [-> Hk]. intros [= <-]. auto.
  Qed.
  Lemma nid_inj m n n' a : compOK m -> nid m n = Some a -> nid m n' = Some a -> n = n'.
  Proof.
    unfold nid. intros Hm. destruct node_uniform as [Hu|Hu]; destruct (Hu n) as (k & Hk), (Hu n') as (k' & Hk').
    - rewrite Hk, Hk'. intros A B. apply node_inj. rewrite Hk, Hk'. f_equal. eapply compOK_inj; eauto.
    - destruct Hk as [Hk _], Hk' as [Hk' _]. rewrite Hk, Hk'. intros [= ->] [= ->].
      apply node_inj. congruence.
  Qed.

  Lemma compressN_ok n m i m' : compOK m -> compressN nodeId n m = (i, m') ->
    compOK m' /\ ext m m' /\ nid m' n = Some i.
  Proof.
    unfold compressN, nid. intros Hm. destruct (nodeId n) eqn:E.
    - apply compressV_ok; eauto.
    - intros [= <- <-]. auto using ext_refl.
  Qed.

  Definition ikey (m : list (K * N)) (l r : Nd) (key : N) : Prop :=
    exists a b, nid m l = Some a /\ nid m r = Some b /\ key = pack a b.

  Lemma ikey_ext m m' l r k : ext m m' -> ikey m l r k -> ikey m' l r k.
  Proof. intros E (a & b & Ha & Hb & ->). exists a, b. eauto using nid_ext. Qed.

  Lemma ikey_inj m l r l' r' k : compOK m -> ikey m l r k -> ikey m l' r' k -> l = l' /\ r = r'.
  Proof.
    intros Hm (a & b & Ha & Hb & ->) (c & d & Hc & Hd & E).
    apply pack_inj in E as [<- <-]; eauto using nid_small.
    split; eapply nid_inj; eauto.
  Qed.

  Lemma instKey_ok l r m k m' : compOK m -> instKey nodeId l r m = (k, m') ->
    compOK m' /\ ext m m' /\ ikey m' l r k.
  Proof.
    unfold instKey. intros Hm.
    destruct (compressN nodeId l m) as [a m1] eqn:E1. destruct (compressN nodeId r m1) as [b m2] eqn:E2.
    intros [= <- <-]. apply compressN_ok in E1 as (O1 & X1 & I1); auto.
    apply compressN_ok in E2 as (O2 & X2 & I2); auto.
    split; auto. split; [eapply ext_trans; eauto|]. exists a, b. eauto using nid_ext.
  Qed.

  Definition nkey (m : list (K * N)) (l r : Fc) (key : @nodeKey Fc) : Prop :=
    match factId l, factId r with
    | Some x, Some y => exists a b, afind x m = Some a /\ afind y m = Some b /\ key = inl (pack a b)
    | _, _ => key = inr (l, r)
    end.

  Lemma nkey_ext m m' l r k : ext m m' -> nkey m l r k -> nkey m' l r k.
  Proof.
    unfold nkey. destruct (factId l), (factId r); auto. intros E (a & b & Ha & Hb & ->).
    exists a, b. auto.
  Qed.

  Lemma nkey_inj m l r l' r' k : compOK m -> nkey m l r k -> nkey m l' r' k -> l = l' /\ r = r'.
  Proof.
    unfold nkey. intros Hm A B.
    destruct (factId l) as [x|] eqn:El, (factId r) as [y|] eqn:Er,
      (factId l') as [x'|] eqn:El', (factId r') as [y'|] eqn:Er'.
    1: { destruct A as (a & b & Ha & Hb & ->), B as (c & d & Hc & Hd & E). injection E as E.
         apply pack_inj in E as [<- <-]; eauto using compOK_small.
         pose proof (compOK_inj _ _ _ _ Hm Ha Hc). pose proof (compOK_inj _ _ _ _ Hm Hb Hd). subst.
         split; apply fact_inj; congruence. }
    all: try (destruct A as (? & ? & _ & _ & ->)); try (destruct B as (? & ? & _ & _ & B)); subst; try discriminate;
      injection B as <- <-; auto.
  Qed.

  Lemma mkNodeKey_ok l r m k m' : compOK m -> mkNodeKey factId l r m = (k, m') ->
    compOK m' /\ ext m m' /\ nkey m' l r k.
  Proof.
    unfold mkNodeKey, nkey. intros Hm.
    destruct (factId l) as [x|] eqn:El, (factId r) as [y|] eqn:Er;
      try (intros [= <- <-]; auto using ext_refl; fail).
    destruct (compressV x m) as [a m1] eqn:E1. destruct (compressV y m1) as [b m2] eqn:E2.
    intros [= <- <-]. apply compressV_ok in E1 as (O1 & X1 & I1); eauto.
    apply compressV_ok in E2 as (O2 & X2 & I2); eauto.
    split; auto. split; [eapply ext_trans; eauto|]. exists a, b. auto.
  Qed.

  (** contents of one inner map *)
  Definition innerOK (m : list (K * N)) (val : Fc -> Fc -> EF) (em : ecm (@nodeKey Fc) EF) : Prop :=
    forall nk e, findValue nk em = Some e ->
      exists d d', nkey m d d' nk /\ efeqb e (val d d') = true.

  Lemma innerOK_ext m m' val em : ext m m' -> innerOK m val em -> innerOK m' val em.
  Proof. intros E Hi nk e F. destruct (Hi nk e F) as (d & d' & A & B). eauto using nkey_ext. Qed.

  Lemma innerOK_insert m val em d d' nk : nkey m d d' nk -> findValue nk em = None ->
    innerOK m val em -> innerOK m val (fst (try_emplace efeqb nk (val d d') em)).
  Proof.
    intros Hk Hn Hi k e F. destruct (eq_dec k nk) as [->|Hne].
    - destruct (find_insert_new efeqb nk (val d d') (eq_refl' _) em Hn) as (w & Hw & Ew).
      rewrite Hw in F. injection F as <-. eauto.
    - rewrite find_insert_other in F by auto. auto.
  Qed.

  Definition opt_is (o : option FF) (f : FF) : Prop := match o with Some g => g = f | None => True end.

  Record cacheOK (c : cache) : Prop := {
    ck_comp : compOK (comp c);
    ck_normal : forall key of em, afind key (normalC c) = Some (of, em) -> exists n s,
      ikey (comp c) n s key /\ opt_is of (keepZero autoAddZero zeroed (pNormalFF P n s)) /\
      innerOK (comp c) (fun d d' => pNormalEF P n d s d') em;
    ck_callF : forall n f r, afind (n, f) (callFC c) = Some r ->
      r = keepZero autoAddZero zeroed (pCallFF P n f);
    ck_retF : forall n f e s r, afind (n, f, e, s) (retFC c) = Some r ->
      r = keepZero autoAddZero zeroed (pRetFF P n f e s);
    ck_ctrF : forall n s r, afind (n, s) (ctrFC c) = Some r ->
      r = keepZero autoAddZero zeroed (pCtrFF P n s (calleesOf n));
    ck_callE : forall n d f d' r, afind (n, d, f, d') (callEC c) = Some r -> r = pCallEF P n d f d';
    ck_retE : forall n f e d s d' r, afind (n, f, e, d, s, d') (retEC c) = Some r ->
      r = pRetEF P n f e d s d';
    ck_ctrE : forall key em, afind key (ctrEC c) = Some em -> exists n s,
      ikey (comp c) n s key /\
      innerOK (comp c) (fun d d' => pCtrEF P n d s d' (calleesOf n)) em;
    ck_sumE : forall n d s d' r, afind (n, d, s, d') (sumEC c) = Some r -> r = pSumEF P n d s d' }.

  Lemma cacheOK_empty : cacheOK empty.
  Proof.
    constructor; cbn; try discriminate. split; [constructor|]. split; [intros x []|]. intros [|]; discriminate.
  Qed.

  Lemma cacheOK_comp c m : cacheOK c -> compOK m -> ext (comp c) m -> cacheOK (setComp m c).
  Proof.
    intros [c1 c2 c3 c4 c5 c6 c7 c8 c9] Hm Hx.
    constructor; cbn; auto.
    - intros key of em F. destruct (c2 _ _ _ F) as (n & s & A & B & C). eauto 7 using ikey_ext, innerOK_ext.
    - intros key em F. destruct (c8 _ _ F) as (n & s & A & B). eauto 7 using ikey_ext, innerOK_ext.
  Qed.

  Lemma lookupOr_ok {X Y} `{EqDec X} (k : X) (mk : Y) m r m' (spec : X -> Y) :
    (forall k v, afind k m = Some v -> v = spec k) -> mk = spec k ->
    lookupOr k mk m = (r, m') -> r = spec k /\ forall k v, afind k m' = Some v -> v = spec k.
  Proof.
    unfold lookupOr. intros Hm Hk. destruct (afind k m) eqn:E; intros [= <- <-].
    - auto.
    - split; auto. intros k' v. rewrite afind_aset. destruct (eq_dec k' k); [intros [= <-]; congruence|auto].
  Qed.

  Notation ask := (ask efeqb P autoAddZero zeroed nodeId factId).
  Notation run := (run efeqb P autoAddZero zeroed nodeId factId).
  Notation agree := (agree efeqb P autoAddZero zeroed).

  Lemma setNormal_ok c key of em n s :
    cacheOK c -> ikey (comp c) n s key ->
    opt_is of (keepZero autoAddZero zeroed (pNormalFF P n s)) ->
    innerOK (comp c) (fun d d' => pNormalEF P n d s d') em ->
    cacheOK (setNormal (aset key (of, em) (normalC c)) c).
  Proof.
    intros [c1 c2 c3 c4 c5 c6 c7 c8 c9] Hk Ho He. constructor; cbn; auto.
    intros k' o' e'. rewrite afind_aset. destruct (eq_dec k' key) as [->|]; [|auto].
    intros [= <- <-]. eauto.
  Qed.

  Lemma setCtrE_ok c key em n s :
    cacheOK c -> ikey (comp c) n s key ->
    innerOK (comp c) (fun d d' => pCtrEF P n d s d' (calleesOf n)) em ->
    cacheOK (setCtrE (aset key em (ctrEC c)) c).
  Proof.
    intros [c1 c2 c3 c4 c5 c6 c7 c8 c9] Hk He. constructor; cbn; auto.
    intros k' e'. rewrite afind_aset. destruct (eq_dec k' key) as [->|]; [|auto].
    intros [= <-]. eauto.
  Qed.

  Lemma innerOK_nil m val : innerOK m val [].
  Proof. intros nk e. discriminate. Qed.

  Lemma ask_ok q c a c' : cacheOK c -> calleesFixed calleesOf q -> ask q c = (a, c') ->
    cacheOK c' /\ agree q a.
  Proof.
    intros Hc Hq. destruct q; cbn [FlowCacheModel.ask]; unfold agree; cbn [expected].
    - (* normal FF *)
      unfold getNormalFF. destruct (instKey nodeId curr succ (comp c)) as [key m] eqn:Ek.
      apply instKey_ok in Ek as (Om & Xm & Ik); [|apply Hc].
      pose proof (cacheOK_comp c m Hc Om Xm) as Hc'.
      destruct (afind key (normalC (setComp m c))) as [[[f|] em]|] eqn:Ef; intros [= <- <-].
      + split; auto. destruct (ck_normal _ Hc' _ _ _ Ef) as (n & s & A & B & _).
        destruct (ikey_inj _ _ _ _ _ _ Om A Ik) as [-> ->]. exact B.
      + destruct (ck_normal _ Hc' _ _ _ Ef) as (n & s & A & _ & B).
        destruct (ikey_inj _ _ _ _ _ _ Om A Ik) as [-> ->].
        split; [|reflexivity]. eapply (setNormal_ok (setComp m c)); eauto. reflexivity.
      + split; [|reflexivity]. eapply (setNormal_ok (setComp m c)); eauto using innerOK_nil. reflexivity.
    - destruct (lookupOr (cs, f) _ (callFC c)) as [r x] eqn:El. intros [= <- <-].
      apply (lookupOr_ok _ _ _ _ _ (fun k => keepZero autoAddZero zeroed (pCallFF P (fst k) (snd k)))) in El as [-> Hx]; auto.
      + split; auto. destruct Hc. constructor; cbn; auto. intros n g r E. apply (Hx (n, g) r E).
      + intros [n g] v E. now apply (ck_callF _ Hc).
    - destruct (lookupOr (cs, f, ex, rs) _ (retFC c)) as [r x] eqn:El. intros [= <- <-].
      apply (lookupOr_ok _ _ _ _ _ (fun k => let '(n, g, e, s) := k in keepZero autoAddZero zeroed (pRetFF P n g e s))) in El as [-> Hx]; auto.
      + split; auto. destruct Hc. constructor; cbn; auto. intros n g e s r E. apply (Hx (n, g, e, s) r E).
      + intros [[[n g] e] s] v E. now apply (ck_retF _ Hc).
    - cbn in Hq. subst callees.
      destruct (lookupOr (cs, rs) _ (ctrFC c)) as [r x] eqn:El. intros [= <- <-].
      apply (lookupOr_ok _ _ _ _ _ (fun k => keepZero autoAddZero zeroed (pCtrFF P (fst k) (snd k) (calleesOf (fst k))))) in El as [-> Hx]; auto.
      + split; auto. destruct Hc. constructor; cbn; auto. intros n g r E. apply (Hx (n, g) r E).
      + intros [n g] v E. now apply (ck_ctrF _ Hc).
    - intros [= <- <-]. auto.
    - (* normal EF *)
      unfold getNormalEF. destruct (instKey nodeId curr succ (comp c)) as [key m] eqn:Ek.
      destruct (mkNodeKey factId d d' m) as [nk m'] eqn:En.
      apply instKey_ok in Ek as (Om & Xm & Ik); [|apply Hc].
      apply mkNodeKey_ok in En as (Om' & Xm' & Nk); [|auto].
      apply (ikey_ext _ _ _ _ _ Xm') in Ik.
      pose proof (cacheOK_comp c m' Hc Om' (ext_trans _ _ _ Xm Xm')) as Hc'.
      destruct (afind key (normalC (setComp m' c))) as [[of em]|] eqn:Ef.
      + destruct (ck_normal _ Hc' _ _ _ Ef) as (n & s & A & B & I).
        destruct (ikey_inj _ _ _ _ _ _ Om' A Ik) as [-> ->].
        destruct (findValue nk em) as [e|] eqn:Ev; intros [= <- <-].
        * split; auto. destruct (I _ _ Ev) as (x & y & Hxy & He).
          destruct (nkey_inj _ _ _ _ _ _ Om' Hxy Nk) as [-> ->]. auto.
        * split; auto. eapply (setNormal_ok (setComp m' c)); eauto. eapply innerOK_insert with (val := fun d d' => pNormalEF P curr d succ d'); eauto.
      + intros [= <- <-]. split; auto. eapply (setNormal_ok (setComp m' c)); eauto.
        eapply innerOK_insert with (em := []) (val := fun d d' => pNormalEF P curr d succ d'); eauto using innerOK_nil.
    - destruct (lookupOr (cs, d, f, d') _ (callEC c)) as [r x] eqn:El. intros [= <- <-].
      apply (lookupOr_ok _ _ _ _ _ (fun k => let '(n, g, e, s) := k in pCallEF P n g e s)) in El as [-> Hx]; auto.
      + split; auto. destruct Hc. constructor; cbn; auto. intros n g e s r E. apply (Hx (n, g, e, s) r E).
      + intros [[[n g] e] s] v E. now apply (ck_callE _ Hc).
    - destruct (lookupOr (cs, f, ex, d, rs, d') _ (retEC c)) as [r x] eqn:El. intros [= <- <-].
      apply (lookupOr_ok _ _ _ _ _ (fun k => let '(n, g, e, d, s, d') := k in pRetEF P n g e d s d')) in El as [-> Hx]; auto.
      + split; auto. destruct Hc. constructor; cbn; auto. intros n g e u s w r E. apply (Hx (n, g, e, u, s, w) r E).
      + intros [[[[[n g] e] u] s] w] v E. now apply (ck_retE _ Hc).
    - (* ctr EF *)
      cbn in Hq. subst callees.
      unfold getCtrEF. destruct (instKey nodeId cs rs (comp c)) as [key m] eqn:Ek.
      destruct (mkNodeKey factId d d' m) as [nk m'] eqn:En.
      apply instKey_ok in Ek as (Om & Xm & Ik); [|apply Hc].
      apply mkNodeKey_ok in En as (Om' & Xm' & Nk); [|auto].
      apply (ikey_ext _ _ _ _ _ Xm') in Ik.
      pose proof (cacheOK_comp c m' Hc Om' (ext_trans _ _ _ Xm Xm')) as Hc'.
      destruct (afind key (ctrEC (setComp m' c))) as [em|] eqn:Ef.
      + destruct (ck_ctrE _ Hc' _ _ Ef) as (n & s & A & I).
        destruct (ikey_inj _ _ _ _ _ _ Om' A Ik) as [-> ->].
        destruct (findValue nk em) as [e|] eqn:Ev; intros [= <- <-].
        * split; auto. destruct (I _ _ Ev) as (x & y & Hxy & He).
          destruct (nkey_inj _ _ _ _ _ _ Om' Hxy Nk) as [-> ->]. auto.
        * split; auto. eapply (setCtrE_ok (setComp m' c)); eauto.
          eapply innerOK_insert with (val := fun d d' => pCtrEF P cs d rs d' (calleesOf cs)); eauto.
      + intros [= <- <-]. split; auto. eapply (setCtrE_ok (setComp m' c)); eauto.
        eapply innerOK_insert with (em := []) (val := fun d d' => pCtrEF P cs d rs d' (calleesOf cs)); eauto using innerOK_nil.
    - destruct (lookupOr (cs, d, rs, d') _ (sumEC c)) as [r x] eqn:El. intros [= <- <-].
      apply (lookupOr_ok _ _ _ _ _ (fun k => let '(n, g, e, s) := k in pSumEF P n g e s)) in El as [-> Hx]; auto.
      + split; auto. destruct Hc. constructor; cbn; auto. intros n g e s r E. apply (Hx (n, g, e, s) r E).
      + intros [[[n g] e] s] v E. now apply (ck_sumE _ Hc).
  Qed.

  Lemma run_ok qs : Forall (calleesFixed calleesOf) qs -> forall c, cacheOK c ->
    Forall2 agree qs (fst (run qs c)).
  Proof.
    induction 1 as [|q qs Hq Hqs IH]; intros c Hc; cbn [FlowCacheModel.run]; [constructor|].
    destruct (ask q c) as [a c'] eqn:E. apply ask_ok in E as [Hc' Ha]; auto.
    specialize (IH c' Hc'). destruct (run qs c') as [l c'']. constructor; auto.
  Qed.

  Lemma cache_transparent qs : Forall (calleesFixed calleesOf) qs ->
    Forall2 agree qs (fst (run qs empty)).
  Proof. intros Hq. apply run_ok; auto using cacheOK_empty. Qed.
End P.
