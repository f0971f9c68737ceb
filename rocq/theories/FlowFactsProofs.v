(** Library summaries after any sequence of calls. *)
From Coq Require Import String List Bool Arith Lia.
From Verif Require Import Assoc FlowFactsModel FlowFactsSpec.
Import ListNotations.

Section P.
  Context {K : Type} {EK : EqDec K}.
  Implicit Types (T : table K) (h : list (op K)).

  Definition apply T (o : op K) : table K :=
    match o with InsertSet k i out => insertSet k i out T | AddElement k i f => addElement k i f T | Lookup k i => snd (getFacts k i T) end.
  Definition apply' T (o : op K) : table K := match o with Lookup _ _ => T | _ => apply T o end.

  Definition entry k i T : option (list fact) := match afind k T with Some m => afind i m | None => None end.
  Lemma entry_insert k i out T k' i' : entry k' i' (insertSet k i out T) =
    match entry k i T with
    | Some _ => entry k' i' T
    | None => if eqb k k' && (i =? i') then Some out else entry k' i' T
    end.
  Proof.
    unfold insertSet, entry, afindd. rewrite afind_aset. destruct (eq_dec k' k) as [->|Nk].
    - rewrite eqb_refl. cbn [andb]. destruct (afind k T) as [m|] eqn:E.
      + destruct (afind i m) eqn:Ei; [reflexivity|]. rewrite afind_aset. destruct (eq_dec i' i) as [->|Ni].
        * now rewrite Nat.eqb_refl.
        * rewrite (proj2 (Nat.eqb_neq i i')) by auto. reflexivity.
      + cbn [afind aset]. destruct (eq_dec i' i) as [->|Ni].
        * now rewrite Nat.eqb_refl.
        * rewrite (proj2 (Nat.eqb_neq i i')) by auto. reflexivity.
    - rewrite (proj2 (eqb_false k k')) by auto. cbn [andb]. destruct (match afind k T with Some m => afind i m | None => None end); reflexivity.
  Qed.
  Lemma entry_add k i f T k' i' : entry k' i' (addElement k i f T) =
    if eqb k k' && (i =? i') then Some (match entry k i T with Some l => l | None => [] end ++ [f]) else entry k' i' T.
  Proof.
    unfold addElement, entry, afindd. rewrite afind_aset. destruct (eq_dec k' k) as [->|Nk].
    - rewrite eqb_refl. cbn [andb]. rewrite afind_aset. destruct (eq_dec i' i) as [->|Ni].
      + rewrite Nat.eqb_refl. destruct (afind k T); reflexivity.
      + rewrite (proj2 (Nat.eqb_neq i i')) by auto. destruct (afind k T); reflexivity.
    - now rewrite (proj2 (eqb_false k k')) by auto.
  Qed.
  Lemma entry_get k i T k' i' : entry k' i' (snd (getFacts k i T)) =
    if eqb k k' && (i =? i') && contains k T then Some (match entry k i T with Some l => l | None => [] end) else entry k' i' T.
  Proof.
    unfold getFacts, entry, contains, afindd. destruct (afind k T) as [m|] eqn:E; cbn [snd]; [|now rewrite andb_false_r]. rewrite andb_true_r, afind_aset.
    destruct (eq_dec k' k) as [->|Nk].
    - rewrite eqb_refl. cbn [andb]. rewrite E, afind_aset. destruct (eq_dec i' i) as [->|Ni].
      + rewrite Nat.eqb_refl. reflexivity.
      + rewrite (proj2 (Nat.eqb_neq i i')) by auto. reflexivity.
    - now rewrite (proj2 (eqb_false k k')) by auto.
  Qed.
  Lemma contains_apply k T o : contains k (apply T o) = true <-> contains k T = true \/ names k o.
  Proof.
    destruct o as [k' i out|k' i f|k' i]; cbn [apply names].
    1,2: unfold contains, insertSet, addElement; rewrite afind_aset; destruct (eq_dec k k') as [->|Nk]; [tauto|]; destruct (afind k T); intuition congruence.
    unfold contains, getFacts. destruct (afind k' T) eqn:E; cbn [snd]; [|destruct (afind k T); intuition]. rewrite afind_aset.
    destruct (eq_dec k k') as [->|Nk]; [rewrite E; tauto|]. destruct (afind k T); intuition.
  Qed.
  Lemma contains_apply' k T o : contains k (apply' T o) = true <-> contains k T = true \/ names k o.
  Proof. destruct o; [apply contains_apply..|]. cbn. tauto. Qed.

  Lemma same_pair k i k' i' : eqb k k' && (i =? i') = true <-> k = k' /\ i = i'.
  Proof. rewrite andb_true_iff, eqb_true, Nat.eqb_eq. tauto. Qed.

  (** the facts of an entry; a missing one is empty *)
  Definition facts k i T : list fact := match entry k i T with Some l => l | None => [] end.
  Lemma facts_get k i T k' i' : facts k' i' (snd (getFacts k i T)) = facts k' i' T.
  Proof.
    unfold facts. rewrite entry_get. destruct (eqb k k' && (i =? i')) eqn:E; [|reflexivity]. apply same_pair in E. destruct E as [-> ->].
    destruct (contains k' T); reflexivity.
  Qed.
  Lemma fst_get k i T : fst (getFacts k i T) = facts k i T.
  Proof. unfold getFacts, facts, entry, afindd. destruct (afind k T) as [m|]; [cbn; destruct (afind i m)|]; reflexivity. Qed.

  Section Run.
    Variable step : table K -> op K -> table K.
    Hypothesis ins : forall T k i out, step T (InsertSet k i out) = insertSet k i out T.
    Hypothesis addE : forall T k i f, step T (AddElement k i f) = addElement k i f T.
    Hypothesis look : forall T k i k' i', facts k' i' (step T (Lookup k i)) = facts k' i' T.
    Lemma added_facts k i h l : added k i h l -> forall T l0, entry k i T = Some l0 ->
      (forall T j j' l1, entry k i T = Some l1 -> entry k i (step T (Lookup j j')) = Some l1) ->
      entry k i (fold_left step h T) = Some (l0 ++ l).
    Proof.
      induction 1 as [|f h l A IH|o h l A IH No]; intros T l0 E Lk; cbn [fold_left].
      - now rewrite app_nil_r.
      - rewrite (IH _ (l0 ++ [f])); auto; [now rewrite <- app_assoc|]. rewrite addE, entry_add, (proj2 (same_pair k i k i)), E; auto.
      - apply IH; auto. destruct o as [k' i' out|k' i' f|k' i']; [rewrite ins, entry_insert| rewrite addE, entry_add|now apply Lk].
        + destruct (entry k' i' T) eqn:E'; [exact E|]. destruct (eqb k' k && (i' =? i)) eqn:S; [|exact E]. apply same_pair in S. destruct S as [-> ->]. congruence.
        + destruct (eqb k' k && (i' =? i)) eqn:S; [|exact E]. apply same_pair in S. destruct S as [-> ->]. destruct (No f eq_refl).
    Qed.
    Hypothesis keep : forall T k i j j' l, entry k i T = Some l -> entry k i (step T (Lookup j j')) = Some l.
    (** an entry is missing, or empty because somebody has looked *)
    Lemma known_facts k i h l : known k i h l -> forall T, entry k i T = None ->
      (forall T j j', entry k i T = None -> entry k i (step T (Lookup j j')) = None) ->
      entry k i (fold_left step h T) = Some l.
    Proof.
      induction 1 as [out h l A|f h l A|o h l A IH N1 N2]; intros T E Lk; cbn [fold_left].
      - apply (added_facts k i h l A); auto. rewrite ins, entry_insert, E, (proj2 (same_pair k i k i)); auto.
      - change (f :: l) with ([f] ++ l). apply (added_facts k i h l A); auto. rewrite addE, entry_add, (proj2 (same_pair k i k i)), E; auto.
      - apply IH; auto. destruct o as [k' i' out|k' i' f|k' i']; [rewrite ins, entry_insert|rewrite addE, entry_add|now apply Lk].
        + destruct (entry k' i' T) eqn:E'; [exact E|]. destruct (eqb k' k && (i' =? i)) eqn:S; [|exact E]. apply same_pair in S. destruct S as [-> ->]. destruct (N1 out eq_refl).
        + destruct (eqb k' k && (i' =? i)) eqn:S; [|exact E]. apply same_pair in S. destruct S as [-> ->]. destruct (N2 f eq_refl).
    Qed.
    Definition noInsert k i h := forall out, ~ In (InsertSet k i out) h.
    Definition inTime k i h := forall h1 h2, h = h1 ++ Lookup k i :: h2 -> noInsert k i h2.
    Lemma known_in_time k i h l : known k i h l -> inTime k i h ->
      (forall T j j', (j, j') <> (k, i) -> entry k i (step T (Lookup j j')) = entry k i T) ->
      forall T, facts k i T = [] -> entry k i T = None \/ noInsert k i h -> entry k i (fold_left step h T) = Some l.
    Proof.
      induction 1 as [out h l A|f h l A|o h l A IH N1 N2]; intros Ti Ot T Fa E; cbn [fold_left].
      - apply (added_facts k i h l A); auto. destruct E as [E|E]; [|destruct (E out); now left].
        rewrite ins, entry_insert, E, (proj2 (same_pair k i k i)); auto.
      - change (f :: l) with ([f] ++ l). apply (added_facts k i h l A); auto. rewrite addE, entry_add, (proj2 (same_pair k i k i)); auto.
        unfold facts in Fa. rewrite Fa. reflexivity.
      - assert (Ti' : inTime k i h) by (intros h1 h2 ->; apply (Ti (o :: h1)); reflexivity).
        assert (Nx : noInsert k i (o :: h) -> noInsert k i h) by (intros H out I; apply (H out); now right).
        destruct o as [k' i' out|k' i' f|k' i'].
        + assert (Eq : entry k i (step T (InsertSet k' i' out)) = entry k i T).
          { rewrite ins, entry_insert. destruct (entry k' i' T) eqn:E'; [reflexivity|]. destruct (eqb k' k && (i' =? i)) eqn:S; [|reflexivity].
            apply same_pair in S. destruct S as [-> ->]. destruct (N1 out eq_refl). }
          apply IH; auto; [unfold facts in *|]; rewrite Eq; [exact Fa|tauto].
        + assert (Eq : entry k i (step T (AddElement k' i' f)) = entry k i T).
          { rewrite addE, entry_add. destruct (eqb k' k && (i' =? i)) eqn:S; [|reflexivity]. apply same_pair in S. destruct S as [-> ->]. destruct (N2 f eq_refl). }
          apply IH; auto; [unfold facts in *|]; rewrite Eq; [exact Fa|tauto].
        + apply IH; auto; [now rewrite look|]. destruct (eq_dec (k', i') (k, i)) as [[= -> ->]|Ne].
          * right. apply (Ti []). reflexivity.
          * rewrite Ot by exact Ne. tauto.
    Qed.
    Lemma unknown_facts k i h : (forall l, ~ known k i h l) -> forall T, facts k i T = [] -> facts k i (fold_left step h T) = [].
    Proof.
      assert (Ad : forall h, exists l, added k i h l).
      { clear -EK. induction h as [|o h (l & IH)]; [eexists; constructor|].
        assert (D : (exists f, o = AddElement k i f) \/ forall f, o <> AddElement k i f).
        { destruct o as [k' i' out|k' i' f|k' i']; try (right; intros; discriminate). destruct (eqb k' k && (i' =? i)) eqn:S.
          - apply same_pair in S. destruct S as [-> ->]. eauto.
          - right. intros g [= -> -> ->]. assert (X : eqb k k && (i =? i) = true) by (apply same_pair; auto). congruence. }
        destruct D as [(f & ->)|D]; [exists (f :: l); apply ad_elem; exact IH|exists l; apply ad_skip; [exact IH|exact D]]. }
      induction h as [|o h IH]; intros Nk T E; cbn [fold_left]; [exact E|].
      destruct (Ad h) as (la & Al).
      assert (N1 : forall out, o <> InsertSet k i out) by (intros out ->; eapply Nk, kn_set, Al).
      assert (N2 : forall f, o <> AddElement k i f) by (intros f ->; eapply Nk, kn_elem, Al).
      apply IH; [intros l A; eapply Nk, kn_skip; eauto|]. destruct o as [k' i' out|k' i' f|k' i']; [rewrite ins|rewrite addE|now rewrite look]; unfold facts in *.
      - rewrite entry_insert. destruct (entry k' i' T) eqn:E'; [exact E|]. destruct (eqb k' k && (i' =? i)) eqn:S; [|exact E]. apply same_pair in S. destruct S as [-> ->]. destruct (N1 out eq_refl).
      - rewrite entry_add. destruct (eqb k' k && (i' =? i)) eqn:S; [|exact E]. apply same_pair in S. destruct S as [-> ->]. destruct (N2 f eq_refl).
    Qed.
  End Run.
  Lemma nodup_apply' T o : NoDup (akeys T) -> NoDup (akeys (apply' T o)).
  Proof. intros H. destruct o; cbn; auto; apply NoDup_aset, H. Qed.
End P.

Section R.
  Context {K F : Type} {EK : EqDec K} {EF : EqDec F}.
  Variable getFunction : K -> option F.
  Hypothesis inj : forall k k' f, getFunction k = Some f -> getFunction k' = Some f -> k = k'.
  Lemma read_afind (T : table K) : NoDup (akeys T) -> forall f m, afind f (readFromFDFF getFunction T) = Some m <-> exists k, getFunction k = Some f /\ In (k, m) T.
  Proof.
    intros ND f m. unfold readFromFDFF.
    set (step := fun (R : table F) (x : K * list (nat * list fact)) => _).
    assert (G : forall T (R : table F), NoDup (akeys T) -> (forall k f m, getFunction k = Some f -> afind f R = Some m -> ~ In k (akeys T)) ->
      (afind f (fold_left step T R) = Some m <-> afind f R = Some m \/ exists k, getFunction k = Some f /\ In (k, m) T)).
    { clear T ND. induction T as [|[k m0] T IH]; intros R ND Dj; cbn [fold_left].
      - split; [auto|]. intros [H|(k & _ & [])]. exact H.
      - cbn in ND. inversion ND as [|? ? Nk ND']; subst. unfold step at 2. cbn [fst snd]. destruct (getFunction k) as [g|] eqn:Eg.
        + unfold contains. destruct (afind g R) as [m1|] eqn:Er; [destruct (Dj k g m1 Eg Er); now left|]. rewrite IH; auto.
          * rewrite afind_aset. destruct (eq_dec f g) as [->|Nf].
            -- split.
               ++ intros [[= ->]|(k' & Hk & I)]; [right; exists k; cbn; auto|]. rewrite (inj k' k g Hk Eg) in I. destruct Nk. now apply (in_map fst) in I.
               ++ intros [H|(k' & Hk & [[= <- <-]|I])]; [congruence|auto|]. rewrite (inj k' k g Hk Eg) in I. destruct Nk. now apply (in_map fst) in I.
            -- split; (intros [H|(k' & Hk & I)]; [auto|right]).
               ++ exists k'. cbn. auto.
               ++ destruct I as [[= <- <-]|I]; [congruence|eauto].
          * intros k' f' m' Hk. rewrite afind_aset. destruct (eq_dec f' g) as [->|Nf].
            -- intros _ I. now rewrite (inj k' k g Hk Eg) in I.
            -- intros Hf I. apply (Dj k' f' m' Hk Hf). now right.
        + rewrite IH; auto.
          * split; (intros [H|(k' & Hk & I)]; [auto|right; exists k'; split; [exact Hk|]]); [now right|]. destruct I as [[= <- <-]|I]; [congruence|exact I].
          * intros k' f' m' Hk Hf I. apply (Dj k' f' m' Hk Hf). now right. }
    rewrite (G T []); [|exact ND|discriminate]. split; [intros [H|H]; [discriminate|exact H]|auto].
  Qed.
End R.
