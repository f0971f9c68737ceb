From Coq Require Import List Bool Lia.
From Verif Require Import Assoc EquivClassMapModel EquivClassMapSpec.
Import ListNotations.

Section P.
  Context {K V : Type} `{EqDec K}.
  Variable veqb : V -> V -> bool.
  Notation try_emplace := (try_emplace veqb).
  Notation insertRange := (insertRange veqb).

  Lemma find_insert_other k k' v : k' <> k -> forall m : ecm K V,
    findValue k' (fst (try_emplace k v m)) = findValue k' m.
  Proof.
    intros Hne. induction m as [|[ks w] m IH]; cbn [EquivClassMapModel.try_emplace].
    - cbn. unfold mem. destruct (in_dec eq_dec k' [k]) as [[->|[]]|]; congruence.
    - destruct (veqb w v).
      + cbn [fst findValue].
        replace (mem k' (sinsert k ks)) with (mem k' ks); auto.
        apply eq_true_iff_eq. rewrite !mem_true, In_sinsert. intuition congruence.
      + destruct (try_emplace k v m). cbn [fst findValue] in *. now rewrite IH.
  Qed.

  Lemma find_insert_new k v : veqb v v = true -> forall m : ecm K V,
    findValue k m = None ->
    exists w, findValue k (fst (try_emplace k v m)) = Some w /\ veqb w v = true.
  Proof.
    intros Hv. induction m as [|[ks w] m IH]; cbn [EquivClassMapModel.try_emplace]; intros Hn.
    - exists v. cbn. unfold mem. destruct (in_dec eq_dec k [k]) as [|n]; [auto|]. destruct n; cbn; auto.
    - cbn in Hn. destruct (mem k ks) eqn:E; [discriminate|]. destruct (veqb w v) eqn:Ew.
      + exists w. cbn. rewrite (proj2 (mem_true k _)); auto. apply In_sinsert; auto.
      + destruct (IH Hn) as (u & Hu & Hu'). destruct (try_emplace k v m). cbn [fst findValue] in *.
        rewrite E. eauto.
  Qed.

  (** *** characterisation for arbitrary histories *)
  Hypothesis veq_refl : forall v, veqb v v = true.
  Hypothesis veq_sym : forall v w, veqb v w = true -> veqb w v = true.
  Hypothesis veq_trans : forall u v w, veqb u v = true -> veqb v w = true -> veqb u w = true.

  Definition distinctVals (vs : list V) : Prop := ForallOrdPairs (fun v w => veqb v w = false) vs.

  Record inv (h : list (K * V)) (m : ecm K V) : Prop := {
    inv_vals : map snd m = classValues veqb h;
    inv_keys : forall ks v k, In (ks, v) m ->
      (In k ks <-> exists w, In (k, w) h /\ veqb v w = true);
    inv_dist : distinctVals (map snd m);
    inv_all : forall k w, In (k, w) h -> exists v, In v (map snd m) /\ veqb v w = true }.

  Lemma newVal_In vs v u : In u (newVal veqb vs v) -> In u vs \/ u = v.
  Proof.
    unfold newVal. destruct (existsb _ vs); auto. rewrite in_app_iff. cbn. intuition.
  Qed.
  Lemma newVal_incl vs v u : In u vs -> In u (newVal veqb vs v).
  Proof.
    unfold newVal. destruct (existsb _ vs); auto. rewrite in_app_iff. auto.
  Qed.
  Lemma newVal_cover vs v : exists u, In u (newVal veqb vs v) /\ veqb u v = true.
  Proof.
    unfold newVal. destruct (existsb _ vs) eqn:E.
    - apply existsb_exists in E. exact E.
    - exists v. rewrite in_app_iff. cbn. auto.
  Qed.
  Lemma newVal_dist vs v : distinctVals vs -> distinctVals (newVal veqb vs v).
  Proof.
    unfold newVal. destruct (existsb _ vs) eqn:E; auto. unfold distinctVals.
    induction vs as [|a vs IH]; intros Hd; cbn.
    - constructor; constructor.
    - cbn in E. apply orb_false_iff in E as [Ea E]. inversion_clear Hd. constructor; auto.
      apply Forall_app. split; auto.
  Qed.

  Lemma try_emplace_values k v : forall m : ecm K V,
    map snd (fst (try_emplace k v m)) = newVal veqb (map snd m) v.
  Proof.
    induction m as [|[ks w] m IH]; cbn [EquivClassMapModel.try_emplace]; auto.
    cbn [map snd]. unfold newVal in *. cbn [existsb]. destruct (veqb w v); auto.
    cbn [orb]. destruct (try_emplace k v m). cbn [fst map snd] in *. rewrite IH.
    destruct (existsb _ _); auto.
  Qed.

  (** every class after an insertion is an old one, or the value's class *)
  Lemma try_emplace_keys k v : forall (m : ecm K V) ks w, distinctVals (map snd m) ->
    In (ks, w) (fst (try_emplace k v m)) ->
    (exists ks0, In (ks0, w) m /\ forall x, In x ks <-> In x ks0 \/ (x = k /\ veqb w v = true)) \/
    (w = v /\ ks = [k] /\ forall u, In u (map snd m) -> veqb u v = false).
  Proof.
    induction m as [|[kz z] m IH]; intros ks w Hd Hin; cbn [EquivClassMapModel.try_emplace] in Hin.
    - destruct Hin as [[= <- <-]|[]]. right. repeat split; auto. intros u [].
    - cbn [map] in Hd. inversion_clear Hd as [|? ? Hf Hd']. destruct (veqb z v) eqn:E.
      + left. destruct Hin as [[= <- <-]|Hin].
        * exists kz. split; [left; auto|]. intros x. rewrite In_sinsert, E. split; [intros [?|?]|intros [?|[? ?]]]; auto.
        * exists ks. split; [right; auto|]. intros x. split; auto. intros [?|[-> Ew]]; auto.
          rewrite Forall_forall in Hf. specialize (Hf w (in_map snd _ _ Hin)). cbn in Hf.
          rewrite (veq_trans z v w E (veq_sym _ _ Ew)) in Hf. discriminate.
      + specialize (IH ks w Hd'). destruct (try_emplace k v m) as [r b]. cbn [fst] in *.
        destruct Hin as [[= <- <-]|Hin].
        * left. exists kz. split; [left; auto|]. intros x. rewrite E. split; [auto|intros [?|[_ ?]]; [auto|discriminate]].
        * destruct (IH Hin) as [(ks0 & H0 & H1)|(-> & -> & Hu)].
          -- left. exists ks0. split; [right; auto|auto].
          -- right. split; [auto|]. split; [auto|]. intros u [<-|Hu']; auto.
  Qed.

  Lemma classValues_snoc (h : list (K * V)) k v : classValues veqb (h ++ [(k, v)]) = newVal veqb (classValues veqb h) v.
  Proof. unfold classValues. now rewrite map_app, fold_left_app. Qed.

  Lemma inv_step (h : list (K * V)) m k v : inv h m -> inv (h ++ [(k, v)]) (fst (try_emplace k v m)).
  Proof.
    intros [I1 I2 I3 I4]. split.
    - rewrite try_emplace_values, classValues_snoc. now f_equal.
    - intros ks w x Hin. destruct (try_emplace_keys k v m ks w I3 Hin) as [(ks0 & H0 & H1)|(-> & -> & Hu)].
      + rewrite H1, (I2 _ _ x H0). split.
        * intros [(u & Hu & E)|[-> E]]; [exists u|exists v]; rewrite in_app_iff; cbn; auto.
        * intros (u & Hu & E). rewrite in_app_iff in Hu. destruct Hu as [Hu|[[= <- <-]|[]]]; eauto.
      + split.
        * intros [<-|[]]. exists v. rewrite in_app_iff. cbn. auto.
        * intros (u & Hin' & E). rewrite in_app_iff in Hin'. destruct Hin' as [Hin'|[[= <- <-]|[]]]; [|left; auto].
          destruct (I4 _ _ Hin') as (c & Hc & Ec). specialize (Hu c Hc).
          rewrite (veq_trans c u v Ec (veq_sym _ _ E)) in Hu. discriminate.
    - rewrite try_emplace_values. now apply newVal_dist.
    - intros x w Hin. rewrite try_emplace_values. rewrite in_app_iff in Hin.
      destruct Hin as [Hin|[[= <- <-]|[]]]; [|apply newVal_cover].
      destruct (I4 _ _ Hin) as (c & Hc & Ec). exists c. split; auto. now apply newVal_incl.
  Qed.

  Lemma inv_reach (h : list (K * V)) : inv h (insertRange h []).
  Proof.
    induction h as [|[k v] h IH] using rev_ind.
    - split; cbn; auto; try tauto. constructor.
    - unfold EquivClassMapModel.insertRange in *. rewrite fold_left_app. cbn. now apply inv_step.
  Qed.

  Lemma find_class h m k : inv h m -> findValue k m = firstClass veqb h k.
  Proof.
    intros [I1 I2 _ _]. unfold firstClass. rewrite <- I1. clear I1.
    induction m as [|[ks v] m IH]; cbn; auto.
    rewrite <- IH by (intros; apply I2; right; auto).
    assert (E : mem k ks = existsb (fun p => eqb (fst p) k && veqb v (snd p)) h).
    { apply eq_true_iff_eq. rewrite mem_true, existsb_exists, (I2 ks v k) by (left; auto). split.
      - intros (w & Hw & E). exists (k, w). cbn. now rewrite eqb_refl, E.
      - intros ([k' w] & Hw & E). cbn in E. apply andb_true_iff in E as [E1 E2].
        apply (proj1 (eqb_true _ _)) in E1. subst. eauto. }
    now rewrite E.
  Qed.

  Lemma history_find (h : list (K * V)) k : findValue k (insertRange h []) = firstClass veqb h k.
  Proof. apply find_class, inv_reach. Qed.

  Lemma history_size (h : list (K * V)) : size (insertRange h []) = length (classValues veqb h).
  Proof. unfold size. rewrite <- (inv_vals _ _ (inv_reach h)). now rewrite map_length. Qed.

  Lemma count_find k (m : ecm K V) : count k m = match findValue k m with Some _ => 1 | None => 0 end.
  Proof. induction m as [|[ks v] m IH]; cbn; auto. destruct (mem k ks); auto. Qed.

  Lemma history_count (h : list (K * V)) k : count k (insertRange h []) = 1 <-> In k (map fst h).
  Proof.
    rewrite count_find.
    assert (W : (exists v, findValue k (insertRange h []) = Some v) <-> In k (map fst h)).
    { rewrite history_find. unfold firstClass. split.
      - intros (v & E). apply find_some in E as [_ E]. apply existsb_exists in E as ([k' w] & Hw & E).
        cbn in E. apply andb_true_iff in E as [E1 E2]. apply (proj1 (eqb_true _ _)) in E1. subst.
        apply (in_map fst) in Hw. exact Hw.
      - intros Hin. apply in_map_iff in Hin as ([k' w] & <- & Hin).
        destruct (inv_all _ _ (inv_reach h) _ _ Hin) as (v & Hv & E).
        rewrite (inv_vals _ _ (inv_reach h)) in Hv.
        destruct (find _ _) eqn:Ef; [eauto|]. exfalso.
        apply (find_none _ _ Ef) in Hv. rewrite <- not_true_iff_false in Hv. apply Hv.
        apply existsb_exists. exists (k', w). cbn. now rewrite eqb_refl, E. }
    destruct (findValue k (insertRange h [])); [|split; [discriminate|]].
    - split; auto. intros _. apply W. eauto.
    - intros Hk. apply W in Hk as (v & ?). discriminate.
  Qed.

  (** keys inserted with one value only *)
  Lemma history_single (h : list (K * V)) k v : In (k, v) h -> (forall w, In (k, w) h -> veqb v w = true) ->
    exists w, findValue k (insertRange h []) = Some w /\ veqb w v = true.
  Proof.
    intros Hin Hu. rewrite history_find.
    assert (C : count k (insertRange h []) = 1) by (apply history_count; apply (in_map fst) in Hin; exact Hin).
    rewrite count_find, history_find in C.
    destruct (firstClass veqb h k) as [w|] eqn:E; [|discriminate]. exists w. split; auto.
    unfold firstClass in E. apply find_some in E as [_ E]. apply existsb_exists in E as ([k' u] & Hw & E).
    cbn in E. apply andb_true_iff in E as [E1 E2]. apply (proj1 (eqb_true _ _)) in E1. subst.
    apply veq_trans with u; auto.
  Qed.

  (** keys with equal values share their class, and only those *)
  Lemma history_share (h : list (K * V)) k k' v v' : NoDup (map fst h) -> In (k, v) h -> In (k', v') h ->
    (findValue k (insertRange h []) = findValue k' (insertRange h []) -> veqb v v' = true) /\
    (veqb v v' = true -> findValue k (insertRange h []) = findValue k' (insertRange h [])).
  Proof.
    intros Hnd Hk Hk'.
    assert (U : forall x u w, In (x, u) h -> In (x, w) h -> u = w).
    { intros x u w Hu Hw. apply (In_afind _ _ _ Hnd) in Hu. apply (In_afind _ _ _ Hnd) in Hw. congruence. }
    destruct (history_single h k v Hk) as (w & E & Ew); [intros u Hu; now rewrite (U k v u)|].
    destruct (history_single h k' v' Hk') as (w' & E' & Ew'); [intros u Hu; now rewrite (U k' v' u)|].
    split.
    - rewrite E, E'. intros [= <-]. apply veq_trans with w; auto.
    - intros Evv. rewrite !history_find. unfold firstClass. clear -U Hk Hk' Evv veq_trans veq_sym.
      induction (classValues veqb h) as [|c cs IH]; cbn; auto. rewrite IH.
      assert (Eb : existsb (fun p => eqb (fst p) k && veqb c (snd p)) h =
                   existsb (fun p => eqb (fst p) k' && veqb c (snd p)) h); [|now rewrite Eb].
      apply eq_true_iff_eq. rewrite !existsb_exists. split; intros ([x u] & Hx & Ex);
        cbn in Ex; apply andb_true_iff in Ex as [E1 E2]; apply (proj1 (eqb_true _ _)) in E1; subst.
      + exists (k', v'). cbn. rewrite eqb_refl. split; auto. rewrite (U k u v Hx Hk) in E2. cbn.
        apply veq_trans with v; auto.
      + exists (k, v). cbn. rewrite eqb_refl. split; auto. rewrite (U k' u v' Hx Hk') in E2. cbn.
        apply veq_trans with v'; auto.
  Qed.
End P.
