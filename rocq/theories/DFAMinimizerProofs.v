(** Proofs about DFAMinimizerModel. *)
From Coq Require Import List Bool Arith Lia.
From Verif Require Import Assoc DFAMinimizerModel DFAMinimizerSpec.
Import ListNotations.

(** ** Equivalence classes *)
Definition ecok (n : nat) (ec : eqClasses) : Prop :=
  length ec = n /\ forall v, v < n -> findLeader ec v < n /\ findLeader ec (findLeader ec v) = findLeader ec v.

Lemma grow_lead n v : v < n -> findLeader (grow n) v = v.
Proof. intros Hv. unfold findLeader, grow. now rewrite seq_nth. Qed.
Lemma grow_ok n : ecok n (grow n).
Proof.
  split; [apply seq_length|]. intros v Hv. rewrite grow_lead by auto. now rewrite grow_lead.
Qed.

Lemma join_lead n ec a b v : ecok n ec -> v < n ->
  findLeader (join ec a b) v =
    if findLeader ec v =? Nat.max (findLeader ec a) (findLeader ec b)
    then Nat.min (findLeader ec a) (findLeader ec b) else findLeader ec v.
Proof.
  intros [L _] Hv. unfold join. set (f := fun x => _). unfold findLeader at 1.
  rewrite nth_indep with (d' := f 0) by (rewrite map_length; lia). rewrite map_nth. reflexivity.
Qed.
Lemma join_ok n ec a b : ecok n ec -> a < n -> b < n -> ecok n (join ec a b).
Proof.
  intros E Ha Hb. pose proof E as [L I]. split; [unfold join; now rewrite map_length|].
  intros v Hv. destruct (I a Ha) as [La Ia], (I b Hb) as [Lb Ib], (I v Hv) as [Lv Iv].
  assert (Hlt : findLeader (join ec a b) v < n).
  { rewrite (join_lead n) by auto. destruct (Nat.eqb_spec (findLeader ec v) (Nat.max (findLeader ec a) (findLeader ec b))); lia. }
  split; auto. rewrite !(join_lead n) in * by auto.
  set (la := findLeader ec a) in *. set (lb := findLeader ec b) in *.
  destruct (Nat.eqb_spec (findLeader ec v) (Nat.max la lb)) as [E1|E1].
  - assert (Hm : findLeader ec (Nat.min la lb) = Nat.min la lb) by (destruct (Nat.min_spec la lb) as [[_ ->]|[_ ->]]; auto).
    rewrite Hm. destruct (Nat.eqb_spec (Nat.min la lb) (Nat.max la lb)); reflexivity.
  - rewrite Iv. destruct (Nat.eqb_spec (findLeader ec v) (Nat.max la lb)); [contradiction|reflexivity].
Qed.
Lemma join_same n ec a b x y : ecok n ec -> x < n -> y < n ->
  findLeader (join ec a b) x = findLeader (join ec a b) y <->
  findLeader ec x = findLeader ec y \/
  ((findLeader ec x = findLeader ec a \/ findLeader ec x = findLeader ec b) /\
   (findLeader ec y = findLeader ec a \/ findLeader ec y = findLeader ec b)).
Proof.
  intros E Hx Hy. rewrite !(join_lead n) by auto.
  generalize (findLeader ec a) (findLeader ec b) (findLeader ec x) (findLeader ec y). intros la lb lx ly.
  destruct (Nat.eqb_spec lx (Nat.max la lb)), (Nat.eqb_spec ly (Nat.max la lb)); lia.
Qed.

Lemma count_mono (p : nat -> bool) l l' : l <= l' ->
  length (filter p (seq 0 l)) <= length (filter p (seq 0 l')).
Proof.
  intros Hl. replace l' with (l + (l' - l)) by lia. rewrite seq_app, filter_app, app_length. lia.
Qed.
Lemma count_strict (p : nat -> bool) l l' : l < l' -> p l = true ->
  length (filter p (seq 0 l)) < length (filter p (seq 0 l')).
Proof.
  intros Hl Hp. apply Nat.lt_le_trans with (length (filter p (seq 0 (S l)))).
  - replace (S l) with (l + 1) by lia. rewrite seq_app, filter_app, app_length. cbn. rewrite Hp. cbn. lia.
  - apply count_mono. lia.
Qed.
Lemma compress_cls n ec v : ecok n ec -> v < n ->
  cls (compress ec) v = length (filter (isLeader ec) (seq 0 (findLeader ec v))).
Proof.
  intros [L _] Hv. unfold cls, compress. set (f := fun l => _).
  rewrite nth_indep with (d' := f 0) by (rewrite map_length; lia). rewrite map_nth. reflexivity.
Qed.
Lemma compress_same n ec x y : ecok n ec -> x < n -> y < n ->
  cls (compress ec) x = cls (compress ec) y <-> findLeader ec x = findLeader ec y.
Proof.
  intros E Hx Hy. rewrite !(compress_cls n) by auto. split; [|now intros ->].
  destruct (proj2 E x Hx) as [_ Ix], (proj2 E y Hy) as [_ Iy].
  intros Hc. destruct (lt_eq_lt_dec (findLeader ec x) (findLeader ec y)) as [[Hl|]|Hl]; auto; exfalso.
  - assert (Hp : isLeader ec (findLeader ec x) = true) by (unfold isLeader; apply Nat.eqb_eq; auto).
    pose proof (count_strict _ _ _ Hl Hp). lia.
  - assert (Hp : isLeader ec (findLeader ec y) = true) by (unfold isLeader; apply Nat.eqb_eq; auto).
    pose proof (count_strict _ _ _ Hl Hp). lia.
Qed.
Lemma compress_bound n ec v : ecok n ec -> v < n -> cls (compress ec) v < getNumClasses ec.
Proof.
  intros E Hv. rewrite (compress_cls n) by auto. unfold getNumClasses. destruct E as [L I].
  destruct (I v Hv) as [Lv Iv]. rewrite L. apply count_strict; auto. unfold isLeader. now apply Nat.eqb_eq.
Qed.
Lemma numClasses_bound n ec : ecok n ec -> getNumClasses ec <= n.
Proof.
  intros [L _]. unfold getNumClasses. rewrite L. rewrite <- (seq_length n 0) at 2. generalize (seq 0 n) as l.
  induction l as [|x l IH]; cbn; [lia|]. destruct (isLeader ec x); cbn; lia.
Qed.

(** ** removeAt *)
Lemma setAt_length {A} (a : A) : forall l i, length (setAt i a l) = length l.
Proof. induction l as [|x l IH]; intros [|i]; cbn; auto. Qed.
Lemma setAt_in {A} (a : A) : forall l i x, In x (setAt i a l) -> x = a \/ In x l.
Proof.
  induction l as [|y l IH]; intros [|i] x; cbn; auto.
  - intros [|]; auto.
  - intros [|Hx]; auto. apply IH in Hx. tauto.
Qed.
Lemma removelast_length {A} (l : list A) : length (removelast l) = length l - 1.
Proof. induction l as [|x [|y l] IH]; cbn in *; auto. rewrite IH. lia. Qed.
Lemma removelast_in {A} (l : list A) x : In x (removelast l) -> In x l.
Proof. induction l as [|y [|z l] IH]; cbn in *; [tauto|tauto|]. intros [|Hx]; auto. Qed.
Lemma removeAt_length {A} i (l : list A) : length (removeAt i l) = length l - 1.
Proof. destruct l as [|d l]; [reflexivity|]. unfold removeAt. now rewrite removelast_length, setAt_length. Qed.
Lemma removeAt_in {A} i (l : list A) x : In x (removeAt i l) -> In x l.
Proof.
  destruct l as [|d l]; [tauto|]. unfold removeAt. intros Hx. apply removelast_in, setAt_in in Hx.
  destruct Hx as [->|]; auto. destruct (@exists_last _ (d :: l)) as (l' & y & ->); [discriminate|].
  rewrite last_last. apply in_or_app. cbn. auto.
Qed.

Lemma aset_length_new {K V} `{EqDec K} (k : K) (v : V) : forall l, afind k l = None -> length (aset k v l) = S (length l).
Proof.
  induction l as [|[k' v'] l IH]; cbn; auto. destruct (eq_dec k k'); [discriminate|]. intros E. cbn. now rewrite IH.
Qed.

Section P.
  Context {N W : Type} `{EqDec N} `{EqDec W}.
  Implicit Types G : graph N W.

  Definition sim G ec x y : Prop :=
    node G x = node G y /\ length (outEdges G x) = length (outEdges G y) /\
    forall w t, In (w, t) (outEdges G x) -> exists t', In (w, t') (outEdges G y) /\ findLeader ec t = findLeader ec t'.
  Definition stable G ec : Prop :=
    ecok (size G) ec /\
    forall x y, x < size G -> y < size G -> findLeader ec x = findLeader ec y -> sim G ec x y.

  Lemma isEquivalent_ok ec w t w' t' : isEquivalent ec (w, t) (w', t') = true ->
    w = w' /\ findLeader ec t = findLeader ec t'.
  Proof.
    unfold isEquivalent. cbn [fst snd]. destruct (eqb w w') eqn:E; [|discriminate]. cbn [negb].
    apply eqb_eq in E. destruct (Nat.eqb_spec t t') as [->|]; [auto|]. intros E'. now apply Nat.eqb_eq in E'.
  Qed.
  Lemma allEquivalent_ok ec : forall l r : list (@edge W), length l = length r -> allEquivalent ec l r = true ->
    (forall w t, In (w, t) l -> exists t', In (w, t') r /\ findLeader ec t = findLeader ec t') /\
    (forall w t, In (w, t) r -> exists t', In (w, t') l /\ findLeader ec t = findLeader ec t').
  Proof.
    induction l as [|[w t] l IH]; intros [|[w' t'] r] L E; cbn in L; try discriminate.
    - split; intros ? ? [].
    - cbn [allEquivalent] in E. apply andb_true_iff in E as [E1 E2]. apply isEquivalent_ok in E1 as [-> E1].
      destruct (IH r) as [A B]; [lia|auto|]. split; intros w0 t0 [Heq|Hin].
      + injection Heq as -> ->. exists t'. cbn. auto.
      + destruct (A _ _ Hin) as (t1 & ? & ?). exists t1. cbn. auto.
      + injection Heq as -> ->. exists t. cbn. auto.
      + destruct (B _ _ Hin) as (t1 & ? & ?). exists t1. cbn. auto.
  Qed.
  Lemma similar_ok G x y : similar G x y = true -> node G x = node G y /\ length (outEdges G x) = length (outEdges G y).
  Proof.
    unfold similar. intros E. apply andb_true_iff in E as [A B]. apply eqb_eq in A. apply Nat.eqb_eq in B. auto.
  Qed.
  Lemma mergeable_ok G ec x y : similar G x y = true -> mergeable G ec x y = true -> sim G ec x y /\ sim G ec y x.
  Proof.
    intros S M. apply similar_ok in S as [S1 S2]. unfold mergeable in M. unfold sim.
    destruct (allEquivalent ec (outEdges G x) (outEdges G y)) eqn:E.
    - apply allEquivalent_ok in E as [A B]; auto.
    - destruct (Nat.eqb_spec (length (outEdges G x)) 2) as [E2|]; [|discriminate].
      rewrite E2 in S2. destruct (outEdges G x) as [|[w1 t1] [|[w2 t2] [|]]]; try discriminate.
      destruct (outEdges G y) as [|[v1 u1] [|[v2 u2] [|]]]; try discriminate.
      apply andb_true_iff in M as [M1 M2]. apply isEquivalent_ok in M1 as [-> M1]. apply isEquivalent_ok in M2 as [-> M2].
      split; (split; [auto|]); (split; [reflexivity|]); intros w t [Heq|[Heq|[]]]; injection Heq as -> ->; cbn; eauto.
  Qed.

  Lemma makeEquivalent_ok G ec x y : wf G -> stable G ec -> x < size G -> y < size G ->
    sim G ec x y -> sim G ec y x -> stable G (makeEquivalent ec x y).
  Proof.
    intros (_ & Wt & _) [E S] Hx Hy Sxy Syx. unfold makeEquivalent. destruct (Nat.eqb_spec x y); [split; auto|].
    split; [now apply join_ok|]. intros a b Ha Hb Hab. rewrite (join_same (size G)) in Hab by auto.
    assert (Htrans : forall p q r, sim G ec p q -> sim G ec q r -> sim G ec p r).
    { intros p q r (A1 & A2 & A3) (B1 & B2 & B3). split; [congruence|]. split; [congruence|].
      intros w t Ht. destruct (A3 _ _ Ht) as (t1 & H1 & E1). destruct (B3 _ _ H1) as (t2 & H2 & E2).
      exists t2. split; auto. congruence. }
    assert (Hs : sim G ec a b).
    { destruct Hab as [Hab|[Ha' Hb']]; [now apply S|].
      assert (Sax : forall c, (c = x \/ c = y) -> findLeader ec a = findLeader ec c -> sim G ec a c) by (intros c [->| ->] ?; apply S; auto).
      assert (Sxb : forall c, (c = x \/ c = y) -> findLeader ec b = findLeader ec c -> sim G ec c b) by (intros c [->| ->] ?; apply S; auto).
      destruct Ha' as [Ha'|Ha'], Hb' as [Hb'|Hb'].
      - eapply Htrans; [apply (Sax x)|apply (Sxb x)]; auto.
      - eapply Htrans; [apply (Sax x); auto|]. eapply Htrans; [exact Sxy|apply (Sxb y); auto].
      - eapply Htrans; [apply (Sax y); auto|]. eapply Htrans; [exact Syx|apply (Sxb x); auto].
      - eapply Htrans; [apply (Sax y)|apply (Sxb y)]; auto. }
    destruct Hs as (A & B & C). split; auto. split; auto. intros w t Ht. destruct (C _ _ Ht) as (t' & Ht' & Et).
    exists t'. split; auto. rewrite (join_same (size G)) by eauto. auto.
  Qed.

  Definition okPairs G (wl : list (nat * nat)) : Prop :=
    forall l r, In (l, r) wl -> l < size G /\ r < size G /\ similar G l r = true.

  Lemma pass_ok G : wf G -> forall fuel i wl ec ch, stable G ec -> okPairs G wl -> length wl - i < fuel ->
    exists wl' ec' ch', pass fuel G i wl ec ch = Some (wl', ec', ch') /\ stable G ec' /\ okPairs G wl' /\
      length wl' <= length wl /\ (ch' = true -> ch = true \/ length wl' < length wl).
  Proof.
    intros Wf. induction fuel as [|fuel IH]; intros i wl ec ch S O L; [lia|]. cbn [pass].
    destruct (nth_error wl i) as [[l r]|] eqn:E.
    - assert (Hi : i < length wl) by (apply nth_error_Some; congruence).
      destruct (O l r) as (Hl & Hr & Hs); [eapply nth_error_In; eauto|].
      destruct (mergeable G ec l r) eqn:M.
      + apply mergeable_ok in M as [M1 M2]; auto.
        destruct (IH i (removeAt i wl) (makeEquivalent ec l r) true) as (wl' & ec' & ch' & E' & S' & O' & L' & C').
        * now apply makeEquivalent_ok.
        * intros a b Hab. apply O. eapply removeAt_in; eauto.
        * rewrite removeAt_length. lia.
        * rewrite removeAt_length in L'. exists wl', ec', ch'. split; auto. split; auto. split; auto. split; [lia|]. intros _. right. lia.
      + destruct (IH (i + 1) wl ec ch) as (wl' & ec' & ch' & E' & S' & O' & L' & C'); auto; [lia|]. eauto 10.
    - exists wl, ec, ch. split; auto.
  Qed.
  Lemma iterate_ok G : wf G -> forall fuel wl ec, stable G ec -> okPairs G wl -> length wl < fuel ->
    exists ec', iterate fuel G wl ec = Some ec' /\ stable G ec'.
  Proof.
    intros Wf. induction fuel as [|fuel IH]; intros wl ec S O L; [lia|]. cbn [iterate].
    destruct (pass_ok G Wf (length wl + 1) 0 wl ec false S O) as (wl' & ec' & ch' & E & S' & O' & L' & C); [lia|].
    rewrite E. destruct ch'; [|eauto]. apply IH; auto. destruct (C eq_refl); [discriminate|lia].
  Qed.
  Lemma pairsFrom_in G : forall vs l r, In (l, r) (pairsFrom G vs) -> In l vs /\ In r vs /\ similar G l r = true.
  Proof.
    induction vs as [|v vs IH]; intros l r; cbn [pairsFrom]; [contradiction|].
    rewrite in_app_iff, in_map_iff. intros [(r' & Heq & Hf)|Hin].
    - injection Heq as <- <-. apply filter_In in Hf as [A B]. cbn. auto.
    - apply IH in Hin. cbn. tauto.
  Qed.
  Lemma minimize_ok G : wf G -> exists ec, minimizeGraph G = Some ec /\ stable G ec.
  Proof.
    intros Wf. unfold minimizeGraph. apply iterate_ok; auto; [| |lia].
    - split; [apply grow_ok|]. intros x y Hx Hy E. rewrite !grow_lead in E by auto. subst y.
      split; auto. split; auto. eauto.
    - intros l r Hin. apply pairsFrom_in in Hin as (A & B & C). apply in_seq in A, B. split; [lia|]. split; [lia|auto].
  Qed.

  (** ** Building the new graph *)
  Section Build.
    Context (G : graph N W) (Wf : wf G) (eq : list nat).
    Definition same x y : Prop := cls eq x = cls eq y.
    Context (Hlab : forall x y, x < size G -> y < size G -> same x y -> node G x = node G y).

    Definition newv (b : @build N W) (v : nat) : option nat := afind (cls eq v) (eq2vtx b).

    Record binv (b : @build N W) : Prop := {
      b_len : length (nodes (ret b)) = length (adj (ret b));
      b_lab : forall v u, v < size G -> newv b v = Some u -> u < size (ret b) /\ node (ret b) u = node G v;
      b_inj : forall v v' u, v < size G -> v' < size G -> newv b v = Some u -> newv b v' = Some u -> same v v';
      b_edge : forall u w t', In (w, t') (outEdges (ret b) u) ->
        exists v t, v < size G /\ newv b v = Some u /\ In (w, t) (outEdges G v) /\ newv b t = Some t';
      b_rng : forall v, In v (handled b) \/ In v (worklist b) -> v < size G /\ exists u, newv b v = Some u;
      b_cov : forall v u, v < size G -> newv b v = Some u -> exists v0, same v v0 /\ (In v0 (handled b) \/ In v0 (worklist b));
      b_max : length (eq2vtx b) = size (ret b);
      b_nd : NoDup (akeys (eq2vtx b));
      b_sur : forall u, u < size (ret b) -> exists v, v < size G /\ newv b v = Some u;
      b_keys : forall c, In c (akeys (eq2vtx b)) -> exists v, v < size G /\ cls eq v = c }.

    Lemma wf_edge v w t : In (w, t) (outEdges G v) -> t < size G.
    Proof. destruct Wf as (_ & We & _). apply We. Qed.
    Lemma wf_root r : In r (roots G) -> r < size G.
    Proof. destruct Wf as (_ & _ & Wr). apply Wr. Qed.
    Lemma node_some v : v < size G -> exists n, node G v = Some n.
    Proof.
      intros Hv. destruct Wf as (L & _). unfold node, size in *. destruct (nth_error (nodes G) v) eqn:E; eauto.
      apply nth_error_None in E. lia.
    Qed.

    Lemma outEdges_addNode (g : graph N W) x u : outEdges (snd (addNode g x)) u = outEdges g u.
    Proof.
      unfold addNode, outEdges. destruct x; cbn; auto. destruct (lt_dec u (length (adj g))).
      - now rewrite app_nth1.
      - rewrite app_nth2 by lia. rewrite (nth_overflow (adj g)) by lia.
        destruct (u - length (adj g)) as [|[|]]; reflexivity.
    Qed.
    Lemma pushAt_length {A} (a : A) : forall l i, length (pushAt i a l) = length l.
    Proof. induction l as [|x l IH]; intros [|i]; cbn; auto. Qed.
    Lemma pushAt_nth {A} (a : A) : forall l i u, i < length l ->
      nth u (pushAt i a l) [] = if u =? i then nth u l [] ++ [a] else nth u l [].
    Proof.
      induction l as [|x l IH]; intros i u Hi; cbn in Hi; [lia|]. destruct i as [|i], u as [|u]; cbn [pushAt nth]; auto.
      rewrite IH by lia. reflexivity.
    Qed.

    (** adding a vertex for the class of [t] *)
    Definition grownFor (b : @build N W) (t : nat) : graph N W * list (nat * nat) :=
      match afind (cls eq t) (eq2vtx b) with
      | None => let (nt, r) := addNode (ret b) (node G t) in (r, aset (cls eq t) nt (eq2vtx b))
      | Some _ => (ret b, eq2vtx b)
      end.
    Lemma grow_binv b t wl' : binv b -> t < size G ->
      (forall v, In v wl' <-> v = t \/ In v (worklist b)) ->
      let (r, m) := grownFor b t in
      let b' := mkBuild r m (handled b) wl' in
      binv b' /\ (exists u, newv b' t = Some u) /\
      (forall v u, newv b v = Some u -> newv b' v = Some u) /\
      (forall u, outEdges r u = outEdges (ret b) u) /\ roots r = roots (ret b) /\ size (ret b) <= size r.
    Proof.
      intros B Ht Hwl. unfold grownFor. destruct (afind (cls eq t) (eq2vtx b)) as [u0|] eqn:E.
      - split; [|split; [exists u0; exact E|repeat split; auto]].
        destruct B; unfold newv in *; constructor; unfold newv in *; cbn [ret eq2vtx handled worklist] in *; auto.
        + intros v [Hv|Hv]; [apply b_rng0; auto|]. apply Hwl in Hv as [->|Hv]; [split; eauto|apply b_rng0; auto].
        + intros v u Hv Hu. destruct (b_cov0 v u Hv Hu) as (v0 & A & [B|B]); exists v0; split; auto. right. apply Hwl. auto.
      - destruct (node_some t Ht) as (n & Hn).
        destruct (addNode (ret b) (node G t)) as [nt r] eqn:Ea. unfold addNode in Ea. rewrite Hn in Ea. injection Ea as <- <-.
        set (m := aset (cls eq t) (length (nodes (ret b))) (eq2vtx b)).
        assert (Hm : forall v, afind (cls eq v) m = if Nat.eqb (cls eq v) (cls eq t) then Some (length (nodes (ret b))) else afind (cls eq v) (eq2vtx b)).
        { intros v. unfold m. destruct (Nat.eqb_spec (cls eq v) (cls eq t)) as [->|Hne].
          - apply afind_aset_eq.
          - now apply afind_aset_neq. }
        assert (Hold : forall v u, newv b v = Some u -> afind (cls eq v) m = Some u).
        { intros v u Hu. unfold newv in Hu. rewrite Hm. destruct (Nat.eqb_spec (cls eq v) (cls eq t)) as [Ec|]; auto. congruence. }
        assert (Hout : forall u, outEdges (mkGraph (nodes (ret b) ++ [n]) (adj (ret b) ++ [[]]) (roots (ret b))) u = outEdges (ret b) u).
        { intros u. exact (outEdges_addNode (ret b) (Some n) u). }
        destruct B. unfold newv in *.
        split; [constructor; cbn [ret eq2vtx handled worklist nodes adj] in *|].
        + rewrite !app_length. cbn. lia.
        + intros v u Hv Hu. unfold newv in Hu. cbn [eq2vtx] in Hu. rewrite Hm in Hu. unfold size, node. cbn [adj nodes]. rewrite app_length. cbn [length].
          destruct (Nat.eqb_spec (cls eq v) (cls eq t)) as [Ec|Ec].
          * injection Hu as <-. split; [lia|]. rewrite nth_error_app2, Nat.sub_diag by lia. cbn.
            rewrite <- Hn. symmetry. apply Hlab; auto.
          * destruct (b_lab0 v u Hv Hu) as [A B]. unfold size, node in *. split; [lia|].
            rewrite nth_error_app1 by lia. auto.
        + intros v v' u Hv Hv' Hu Hu'. unfold newv in Hu, Hu'. cbn [eq2vtx] in Hu, Hu'. rewrite Hm in Hu, Hu'. unfold same.
          destruct (Nat.eqb_spec (cls eq v) (cls eq t)) as [Ec|Ec], (Nat.eqb_spec (cls eq v') (cls eq t)) as [Ec'|Ec']; try congruence.
          * injection Hu as <-. destruct (b_lab0 v' _ Hv' Hu') as [A _]. unfold size in A. lia.
          * injection Hu' as <-. destruct (b_lab0 v _ Hv Hu) as [A _]. unfold size in A. lia.
          * apply (b_inj0 v v' u); auto.
        + intros u w t' Hin. rewrite Hout in Hin. destruct (b_edge0 u w t' Hin) as (v & t0 & A & B & C & D).
          exists v, t0. unfold newv. cbn [eq2vtx]. auto.
        + intros v Hv. unfold newv. cbn [eq2vtx]. destruct Hv as [Hv|Hv].
          * destruct (b_rng0 v) as (A & u & B); auto. eauto.
          * apply Hwl in Hv as [->|Hv]; [|destruct (b_rng0 v) as (A & u & B); eauto].
            split; auto. rewrite Hm, Nat.eqb_refl. eauto.
        + intros v u Hv Hu. unfold newv in Hu. cbn [eq2vtx] in Hu. rewrite Hm in Hu.
          destruct (Nat.eqb_spec (cls eq v) (cls eq t)) as [Ec|Ec].
          * exists t. split; auto. right. apply Hwl. auto.
          * destruct (b_cov0 v u Hv Hu) as (v0 & A & [B|B]); exists v0; split; auto. right. apply Hwl. auto.
        + unfold m, size. cbn [adj]. rewrite app_length. cbn. rewrite aset_length_new by auto. unfold size in b_max0. lia.
        + unfold m. now apply NoDup_aset.
        + unfold newv, size. cbn [eq2vtx adj]. rewrite app_length. cbn [length]. intros u Hu.
          destruct (Nat.eq_dec u (length (adj (ret b)))) as [->|].
          * exists t. split; auto. rewrite Hm, Nat.eqb_refl. now f_equal.
          * destruct (b_sur0 u) as (v & A & B); [unfold size; lia|]. eauto.
        + intros c Hc. unfold m in Hc. apply In_akeys_aset in Hc as [->|Hc]; eauto.
        + split; [unfold newv; cbn [eq2vtx]; rewrite Hm, Nat.eqb_refl; eauto|]. split; auto. split; auto. split; auto.
          unfold size. cbn. rewrite app_length. lia.
    Qed.

    Lemma addEdge_out (g : graph N W) nw e u : nw < size g ->
      outEdges (addEdge g nw e) u = if u =? nw then outEdges g u ++ [e] else outEdges g u.
    Proof. intros Hn. unfold outEdges, addEdge. cbn [adj]. now apply pushAt_nth. Qed.

    Lemma edge_binv b v nw w t t' : binv b -> v < size G -> newv b v = Some nw -> In (w, t) (outEdges G v) -> newv b t = Some t' ->
      binv (mkBuild (addEdge (ret b) nw (w, t')) (eq2vtx b) (handled b) (worklist b)).
    Proof.
      intros B Hv Hnw He Ht. destruct (b_lab b B v nw Hv Hnw) as [Hlt _].
      assert (Hsz : size (addEdge (ret b) nw (w, t')) = size (ret b)) by (unfold size, addEdge; cbn; apply pushAt_length).
      destruct B. unfold newv in *. constructor; unfold newv in *; cbn [ret eq2vtx handled worklist] in *; auto.
      - unfold addEdge. cbn. rewrite pushAt_length. auto.
      - rewrite Hsz. auto.
      - intros u w0 t0 Hin. rewrite addEdge_out in Hin by auto. destruct (Nat.eqb_spec u nw) as [->|]; [|auto].
        apply in_app_iff in Hin as [Hin|[Heq|[]]]; [auto|]. injection Heq as <- <-. eauto 6.
      - rewrite Hsz. auto.
      - rewrite Hsz. auto.
    Qed.

    Definition mono (b b' : @build N W) : Prop :=
      (forall v u, newv b v = Some u -> newv b' v = Some u) /\
      (forall u e, In e (outEdges (ret b) u) -> In e (outEdges (ret b') u)) /\
      handled b' = handled b /\
      incl (worklist b) (worklist b') /\
      roots (ret b') = roots (ret b) /\
      length (filter (fun v => mem v (handled b)) (worklist b')) = length (filter (fun v => mem v (handled b)) (worklist b)).
    Lemma mono_refl b : mono b b.
    Proof. repeat split; auto. apply incl_refl. Qed.
    Lemma mono_trans a b c : mono a b -> mono b c -> mono a c.
    Proof.
      intros (A1 & A2 & A3 & A4 & A5 & A6) (B1 & B2 & B3 & B4 & B5 & B6). rewrite A3 in *.
      repeat split; auto; try congruence. eapply incl_tran; eauto.
    Qed.

    Definition edgeDone (b : @build N W) (v : nat) (e : edge) : Prop :=
      exists u t', newv b v = Some u /\ newv b (snd e) = Some t' /\ In (fst e, t') (outEdges (ret b) u) /\
        (In (snd e) (handled b) \/ In (snd e) (worklist b)).
    Lemma edgeDone_mono b b' v e : mono b b' -> edgeDone b v e -> edgeDone b' v e.
    Proof.
      intros (A1 & A2 & A3 & A4 & _) (u & t' & B1 & B2 & B3 & B4). exists u, t'. rewrite A3.
      split; auto. split; auto. split; auto. destruct B4; auto.
    Qed.

    Lemma addOut_ok b v nw e : binv b -> v < size G -> newv b v = Some nw -> In e (outEdges G v) ->
      let b' := addOut G eq nw b e in binv b' /\ mono b b' /\ edgeDone b' v e.
    Proof.
      intros B Hv Hnw He. destruct e as [w t]. assert (Ht : t < size G) by (eapply wf_edge; eauto).
      unfold addOut. cbn [fst snd].
      destruct (b_lab b B v nw Hv Hnw) as [Hlt _].
      destruct (mem t (handled b)) eqn:Em.
      - apply mem_true in Em. destruct (b_rng b B t (or_introl Em)) as (_ & t' & Ht').
        unfold newv in Ht'. rewrite Ht'. unfold afindd. rewrite Ht'.
        split; [|split].
        + apply (edge_binv b v nw w t t'); auto.
        + split; [auto|]. split; [|repeat split; auto; apply incl_refl].
          intros u e Hin. cbn [ret]. rewrite addEdge_out by auto. destruct (u =? nw); auto. apply in_or_app. auto.
        + exists nw, t'. split; auto. split; auto. cbn [fst snd ret handled worklist]. split; auto.
          rewrite addEdge_out, Nat.eqb_refl by auto. apply in_or_app. cbn. auto.
      - pose proof (grow_binv b t (t :: worklist b) B Ht) as Gb. unfold grownFor in Gb.
        change (match afind (cls eq t) (eq2vtx b) with
                | Some _ => (ret b, eq2vtx b)
                | None => let (nt, r) := addNode (ret b) (node G t) in (r, aset (cls eq t) nt (eq2vtx b)) end)
          with (grownFor b t) in *.
        destruct (grownFor b t) as [r m] eqn:Eg.
        destruct Gb as (B' & (t' & Ht') & Hold & Hout & Hr & Hsz).
        { intros x. cbn. split; intros [|]; auto. }
        assert (Hm : newv (mkBuild r m (handled b) (t :: worklist b)) t = Some t') by exact Ht'.
        unfold newv in Ht'. cbn [eq2vtx] in Ht'. unfold afindd. rewrite Ht'.
        split; [|split].
        + apply (edge_binv (mkBuild r m (handled b) (t :: worklist b)) v nw w t t'); auto.
        + split; [intros x u Hu; exact (Hold x u Hu)|]. cbn [ret handled worklist]. split; [|split; [auto|split; [|split]]].
          * intros u e Hin. rewrite addEdge_out by lia. rewrite Hout. destruct (u =? nw); auto. apply in_or_app. auto.
          * apply incl_tl, incl_refl.
          * exact Hr.
          * cbn [filter]. now rewrite Em.
        + exists nw, t'. split; [exact (Hold v nw Hnw)|]. split; [exact Hm|]. cbn [fst snd ret handled worklist]. split.
          * rewrite addEdge_out, Nat.eqb_refl by lia. apply in_or_app. cbn. auto.
          * right. cbn. auto.
    Qed.

    Lemma addOuts_ok v nw : v < size G -> forall es b, binv b -> newv b v = Some nw -> incl es (outEdges G v) ->
      let b' := fold_left (addOut G eq nw) es b in binv b' /\ mono b b' /\ forall e, In e es -> edgeDone b' v e.
    Proof.
      intros Hv. induction es as [|e es IH]; intros b B Hnw Hi; cbn [fold_left].
      - split; auto. split; [apply mono_refl|]. intros e [].
      - destruct (addOut_ok b v nw e B Hv Hnw) as (B1 & M1 & E1); [apply Hi; cbn; auto|].
        destruct (IH (addOut G eq nw b e)) as (B2 & M2 & E2); auto.
        { now apply M1. }
        { intros x Hx. apply Hi. cbn. auto. }
        split; auto. split; [eapply mono_trans; eauto|]. intros e' [<-|He']; auto. eapply edgeDone_mono; eauto.
    Qed.

    Definition allDone (b : @build N W) : Prop := forall v e, In v (handled b) -> In e (outEdges G v) -> edgeDone b v e.
    Definition unhandled (b : @build N W) : nat := length (filter (fun v => negb (mem v (handled b))) (seq 0 (size G))).
    Definition again (b : @build N W) : nat := length (filter (fun v => mem v (handled b)) (worklist b)).

    Lemma filter_len_lt {A} (p q : A -> bool) l x : (forall y, In y l -> p y = true -> q y = true) -> In x l -> p x = false -> q x = true ->
      length (filter p l) < length (filter q l).
    Proof.
      intros Hpq. induction l as [|y l IH]; intros Hin Hp Hq; [contradiction|].
      assert (Hle : length (filter p l) <= length (filter q l)).
      { clear -Hpq. assert (Hpq' : forall y, In y l -> p y = true -> q y = true) by (intros; apply Hpq; cbn; auto).
        clear Hpq. induction l as [|z l IH]; cbn; auto. specialize (IH ltac:(intros; apply Hpq'; cbn; auto)).
        destruct (p z) eqn:E; [rewrite (Hpq' z) by (cbn; auto)|destruct (q z)]; cbn; lia. }
      cbn. destruct Hin as [->|Hin].
      - rewrite Hp, Hq. cbn. lia.
      - specialize (IH ltac:(intros; apply Hpq; cbn; auto) Hin Hp Hq).
        destruct (p y) eqn:E; [rewrite (Hpq y) by (cbn; auto)|destruct (q y)]; cbn; lia.
    Qed.

    Lemma mem_cons (x v : nat) l : mem x (v :: l) = if eq_dec x v then true else mem x l.
    Proof.
      destruct (eq_dec x v) as [->|Hn]; [apply mem_true; cbn; auto|].
      destruct (mem x l) eqn:E.
      - apply mem_true in E. apply mem_true. cbn. auto.
      - apply mem_false in E. apply mem_false. cbn. intros [|]; auto.
    Qed.

    Lemma explore_ok : forall u a b, unhandled b = u -> again b = a -> binv b -> allDone b ->
      exists fuel b', (forall k, fuel <= k -> explore k G eq b = Some b') /\ binv b' /\ allDone b' /\ worklist b' = [] /\
        (forall v, In v (handled b) \/ In v (worklist b) -> In v (handled b')) /\
        roots (ret b') = roots (ret b) /\ (forall v x, newv b v = Some x -> newv b' v = Some x).
    Proof.
      induction u as [u IHu] using lt_wf_ind. induction a as [a IHa] using lt_wf_ind.
      intros b Hu Ha B D. destruct (worklist b) as [|v wl] eqn:Ew.
      - exists 1, b. split; [intros [|k] Hk; [lia|]; cbn; now rewrite Ew|]. split; auto. split; auto. split; auto.
        split; auto. intros x [|[]]; auto.
      - destruct (b_rng b B v) as (Hv & nw & Hnw); [rewrite Ew; cbn; auto|].
        set (b0 := mkBuild (ret b) (eq2vtx b) (v :: handled b) wl).
        assert (B0 : binv b0).
        { destruct B. constructor; unfold newv in *; cbn [b0 ret eq2vtx handled worklist] in *; auto.
          - intros x Hx. apply b_rng0. rewrite Ew. cbn in *. tauto.
          - intros x y Hx Hy. destruct (b_cov0 x y Hx Hy) as (v0 & A & C). exists v0. split; auto. rewrite Ew in C. cbn in *. tauto. }
        destruct (addOuts_ok v nw Hv (outEdges G v) b0 B0 Hnw (incl_refl _)) as (B1 & M1 & E1).
        set (b1 := fold_left (addOut G eq nw) (outEdges G v) b0) in *.
        pose proof M1 as (M11 & M12 & M13 & M14 & M15 & M16). cbn [b0 handled worklist ret] in *.
        assert (D1 : allDone b1).
        { intros x e Hx He. rewrite M13 in Hx. destruct Hx as [<-|Hx]; [auto|].
          apply (edgeDone_mono b0); auto. destruct (D x e Hx He) as (y & t' & A1 & A2 & A3 & A4).
          exists y, t'. split; auto. split; auto. split; auto. cbn [b0 handled worklist]. rewrite Ew in A4. cbn in *. tauto. }
        assert (Hstep : exists fuel b', (forall k, fuel <= k -> explore k G eq b1 = Some b') /\ binv b' /\ allDone b' /\ worklist b' = [] /\
          (forall x, In x (handled b1) \/ In x (worklist b1) -> In x (handled b')) /\
          roots (ret b') = roots (ret b1) /\ (forall x y, newv b1 x = Some y -> newv b' x = Some y)).
        { destruct (mem v (handled b)) eqn:Em.
          - apply (IHa (again b1)); auto.
            + unfold again in *. rewrite M13. rewrite Ew in Ha. rewrite <- Ha. cbn [filter]. rewrite Em. cbn [length].
              rewrite M16. apply Nat.lt_succ_r. rewrite (filter_ext _ (fun x => mem x (handled b))); auto. intros x.
              rewrite mem_cons. destruct (eq_dec x v) as [->|]; auto.
            + unfold unhandled in *. rewrite M13, <- Hu. f_equal. apply filter_ext. intros x. rewrite mem_cons.
              destruct (eq_dec x v) as [->|]; [rewrite Em|]; auto.
          - apply (IHu (unhandled b1)) with (a := again b1); auto.
            unfold unhandled in *. rewrite M13, <- Hu. apply filter_len_lt with (x := v).
            + intros y _. rewrite mem_cons. destruct (eq_dec y v) as [->|]; [rewrite Em; auto|auto].
            + apply in_seq. lia.
            + rewrite mem_cons. destruct (eq_dec v v); [reflexivity|congruence].
            + now rewrite Em. }
        destruct Hstep as (fuel & b' & E' & B' & D' & W' & C' & R' & N'). exists (S fuel), b'. split.
        { intros [|k] Hk; [lia|]. cbn [explore]. rewrite Ew. unfold newv in Hnw. rewrite Hnw. apply E'. lia. }
        split; auto. split; auto. split; auto. split; [|split; [congruence|auto]].
        intros x Hx. apply C'. rewrite M13. destruct Hx as [Hx|[->|Hx]]; cbn; auto.
    Qed.

    (** the roots *)
    Lemma addRts_ok : forall rs b, binv b -> (forall r, In r rs -> r < size G) -> handled b = [] ->
      (forall u, u < size (ret b) -> In u (roots (ret b))) ->
      let b' := fold_left (addRt G eq) rs b in
      binv b' /\ handled b' = [] /\ incl (worklist b) (worklist b') /\ incl rs (worklist b') /\
      (forall v u, newv b v = Some u -> newv b' v = Some u) /\
      (forall u, u < size (ret b') -> In u (roots (ret b'))) /\
      (forall u, In u (roots (ret b')) -> In u (roots (ret b)) \/ exists r, In r rs /\ newv b' r = Some u).
    Proof.
      induction rs as [|r rs IH]; intros b B Hrs Hh Hroots; cbn [fold_left].
      - split; auto. split; auto. split; [apply incl_refl|]. split; [apply incl_nil_l|]. split; auto.
      - assert (Hr : r < size G) by (apply Hrs; cbn; auto).
        pose proof (grow_binv b r (r :: worklist b) B Hr) as Gb.
        set (b1 := addRt G eq b r).
        assert (H1 : binv b1 /\ handled b1 = [] /\ worklist b1 = r :: worklist b /\
          (forall v u, newv b v = Some u -> newv b1 v = Some u) /\
          (forall u, u < size (ret b1) -> In u (roots (ret b1))) /\
          (forall u, In u (roots (ret b1)) -> In u (roots (ret b)) \/ newv b1 r = Some u)).
        { unfold b1, addRt. unfold grownFor in Gb. destruct (afind (cls eq r) (eq2vtx b)) as [u0|] eqn:E.
          - destruct Gb as (B' & _ & Hold & _); [intros x; cbn; split; intros [|]; auto|].
            split; auto. split; auto.
          - destruct (node_some r Hr) as (n & Hn). unfold addNode in *. rewrite Hn in *.
            destruct Gb as (B' & (u & Hu) & Hold & Hout & Hrt & Hsz); [intros x; cbn; split; intros [|]; auto|].
            split; [|split; [auto|split; [auto|split; [exact Hold|split]]]].
            + destruct B'. constructor; auto.
            + unfold size, addRoot. cbn [ret adj roots]. rewrite app_length. cbn [length]. intros x Hx.
              apply in_or_app. destruct (Nat.eq_dec x (length (adj (ret b)))) as [->|].
              * right. cbn. left. apply (b_len b B).
              * left. apply Hroots. unfold size. lia.
            + unfold addRoot. cbn [ret roots]. intros x Hx. apply in_app_iff in Hx as [Hx|[<-|[]]]; auto.
              right. unfold newv. cbn [eq2vtx]. apply afind_aset_eq. }
        destruct H1 as (B1 & Hh1 & Hw1 & Hold1 & Hr1 & Hr1').
        destruct (IH b1 B1) as (B2 & Hh2 & Hw2 & Hw2' & Hold2 & Hr2 & Hr2'); auto.
        { intros x Hx. apply Hrs. cbn. auto. }
        split; auto. split; auto. rewrite Hw1 in Hw2. split; [intros x Hx; apply Hw2; cbn; auto|].
        split; [intros x [<-|Hx]; [apply Hw2; cbn; auto|auto]|]. split; auto. split; auto.
        intros u Hu. apply Hr2' in Hu as [Hu|(r0 & A & C)]; [|right; exists r0; cbn; auto].
        apply Hr1' in Hu as [Hu|Hu]; auto. right. exists r. cbn. auto.
    Qed.

    Lemma dedup_in (e : @edge W) l : In e (dedup l) <-> In e l.
    Proof.
      induction l as [|x l IH]; cbn; [tauto|]. destruct (mem x l) eqn:E.
      - apply mem_true in E. rewrite IH. split; auto. intros [->|]; auto.
      - cbn. rewrite IH. tauto.
    Qed.
    Lemma dedup_nodup (l : list (@edge W)) : NoDup (dedup l).
    Proof.
      induction l as [|x l IH]; cbn; [constructor|]. destruct (mem x l) eqn:E; auto.
      constructor; auto. rewrite dedup_in. now apply mem_false.
    Qed.
    Lemma dedupAll_out (g : graph N W) u : outEdges (dedupAll g) u = dedup (outEdges g u).
    Proof. unfold outEdges, dedupAll. cbn [adj]. change (@nil edge) with (dedup (@nil (@edge W))) at 1. apply map_nth. Qed.

    Context (Hsim : forall x y, x < size G -> y < size G -> same x y ->
      forall w t, In (w, t) (outEdges G x) -> exists t', In (w, t') (outEdges G y) /\ same t t').

    (** [B v u]: vertex [u] of the new graph stands for [v] *)
    Lemma create_ok : exists fuel G' (B : nat -> nat -> Prop),
      (forall k, fuel <= k -> createEquivalentGraphFrom k G eq = Some G') /\
      (forall v u, B v u -> v < size G /\ u < size G' /\ node G v = node G' u) /\
      (forall v u w t, B v u -> In (w, t) (outEdges G v) -> exists t', In (w, t') (outEdges G' u) /\ B t t') /\
      (forall v u w t', B v u -> In (w, t') (outEdges G' u) -> exists t, In (w, t) (outEdges G v) /\ B t t') /\
      (forall r, In r (roots G) -> exists r', In r' (roots G') /\ B r r') /\
      (forall r', In r' (roots G') -> exists r, In r (roots G) /\ B r r') /\
      (forall u, u < size G' -> exists v, B v u) /\
      (forall v v' u, B v u -> B v' u -> same v v') /\
      (forall v u u', B v u -> B v u' -> u = u') /\
      (forall u, NoDup (outEdges G' u)) /\ length (nodes G') = length (adj G') /\
      (forall k, (forall v, v < size G -> cls eq v < k) -> size G' <= k).
    Proof.
      set (bi := mkBuild (emptyGraph (N := N) (W := W)) [] [] []).
      assert (Bi : binv bi).
      { constructor; unfold newv, outEdges, size; cbn; try discriminate; try tauto; try lia; [|constructor].
        intros u w t'. destruct u; contradiction. }
      destruct (addRts_ok (roots G) bi Bi) as (B0 & Hh0 & _ & Hw0 & _ & Hr0 & Hr0'); auto.
      { apply wf_root. }
      { cbn. lia. }
      set (b0 := fold_left (addRt G eq) (roots G) bi) in *.
      destruct (explore_ok (unhandled b0) (again b0) b0 eq_refl eq_refl B0) as (fuel & b' & E & B' & D' & W' & C' & R' & N').
      { intros v e Hv. rewrite Hh0 in Hv. contradiction. }
      assert (Hcov : forall v u, v < size G -> newv b' v = Some u -> exists v0, v0 < size G /\ same v v0 /\ In v0 (handled b')).
      { intros v u Hv Hu. destruct (b_cov b' B' v u Hv Hu) as (v0 & A & [C|C]); [|rewrite W' in C; contradiction].
        exists v0. split; auto. apply (b_rng b' B' v0). auto. }
      exists fuel, (dedupAll (ret b')), (fun v u => v < size G /\ newv b' v = Some u).
      assert (Hsz : size (dedupAll (ret b')) = size (ret b')) by (unfold size, dedupAll; cbn; apply map_length).
      split; [|split; [|split; [|split; [|split; [|split; [|split; [|split; [|split; [|split; [|split]]]]]]]]]].
      - intros k Hk. unfold createEquivalentGraphFrom. fold bi b0. rewrite E by auto. reflexivity.
      - intros v u [Hv Hu]. destruct (b_lab b' B' v u Hv Hu) as [A C]. rewrite Hsz. auto.
      - intros v u w t [Hv Hu] He. destruct (Hcov v u Hv Hu) as (v0 & Hv0 & Hs & Hh).
        destruct (Hsim v v0 Hv Hv0 Hs w t He) as (t0 & He0 & Hst).
        destruct (D' v0 (w, t0) Hh He0) as (u0 & t' & A1 & A2 & A3 & A4). cbn [fst snd] in *.
        exists t'. rewrite dedupAll_out, dedup_in.
        assert (u0 = u) by (unfold newv, same in *; congruence). subst u0. split; auto.
        split; [eapply wf_edge; eauto|]. unfold newv, same in *. congruence.
      - intros v u w t' [Hv Hu] He. rewrite dedupAll_out, dedup_in in He.
        destruct (b_edge b' B' u w t' He) as (v1 & t & Hv1 & Hu1 & He1 & Ht).
        pose proof (b_inj b' B' v1 v u Hv1 Hv Hu1 Hu) as Hs.
        destruct (Hsim v1 v Hv1 Hv Hs w t He1) as (t0 & He0 & Hst). exists t0. split; auto.
        split; [eapply wf_edge; eauto|]. unfold newv, same in *. congruence.
      - intros r Hr. destruct (b_rng b0 B0 r) as (Hlt & u & Hu); [right; apply Hw0; auto|].
        exists u. split; [|split; auto]. unfold dedupAll. cbn [roots]. rewrite R'. apply Hr0. apply (b_lab b0 B0 r u Hlt Hu).
      - intros r' Hr'. unfold dedupAll in Hr'. cbn [roots] in Hr'. rewrite R' in Hr'.
        apply Hr0' in Hr' as [[]|(r & Hr & Hu)]. exists r. split; auto. split; auto. now apply wf_root.
      - intros u Hu. rewrite Hsz in Hu. exact (b_sur b' B' u Hu).
      - intros v v' u [Hv Hu] [Hv' Hu']. eapply b_inj; eauto.
      - intros v u u' [_ A] [_ C]. congruence.
      - intros u. rewrite dedupAll_out. apply dedup_nodup.
      - unfold dedupAll. cbn. rewrite map_length. apply (b_len b' B').
      - intros k Hk. rewrite Hsz, <- (b_max b' B'). unfold akeys in *.
        rewrite <- (map_length fst). rewrite <- (seq_length k 0). apply NoDup_incl_length; [apply (b_nd b' B')|].
        intros c Hc. destruct (b_keys b' B' c Hc) as (v & Hv & <-). apply in_seq. specialize (Hk v Hv). lia.
    Qed.
  End Build.

  (** ** Bisimilar vertices read the same *)
  Section Bisim.
    Context (G G' : graph N W) (B : nat -> nat -> Prop).
    Context (Bn : forall v u, B v u -> nth_error (nodes G) v = nth_error (nodes G') u).
    Context (Bf : forall v u w t, B v u -> In (w, t) (outEdges G v) -> exists t', In (w, t') (outEdges G' u) /\ B t t').
    Context (Bb : forall v u w t', B v u -> In (w, t') (outEdges G' u) -> exists t, In (w, t) (outEdges G v) /\ B t t').

    Lemma bisim_leaf v u : B v u -> outEdges G v = [] <-> outEdges G' u = [].
    Proof.
      intros Hb. split; intros E.
      - destruct (outEdges G' u) as [|[w t'] l] eqn:E'; auto. destruct (Bb v u w t' Hb) as (t & Ht & _); [rewrite E'; cbn; auto|].
        rewrite E in Ht. contradiction.
      - destruct (outEdges G v) as [|[w t] l] eqn:E'; auto. destruct (Bf v u w t Hb) as (t' & Ht & _); [rewrite E'; cbn; auto|].
        rewrite E in Ht. contradiction.
    Qed.
    Lemma bisim_reads : forall ws v u n, B v u -> (reads G v n ws <-> reads G' u n ws).
    Proof.
      induction ws as [|[w n'] ws IH]; intros v u n Hb; cbn [reads]; rewrite (Bn v u Hb); [tauto|].
      split; intros [A (t & Ht & Hr)]; split; auto.
      - destruct (Bf v u w t Hb Ht) as (t' & Ht' & Hb'). exists t'. split; auto. now apply (IH t t').
      - destruct (Bb v u w t Hb Ht) as (t' & Ht' & Hb'). exists t'. split; auto. now apply (IH t' t).
    Qed.
    Lemma bisim_readsAll : forall ws v u n, B v u -> (readsAll G v n ws <-> readsAll G' u n ws).
    Proof.
      induction ws as [|[w n'] ws IH]; intros v u n Hb; cbn [readsAll]; rewrite (Bn v u Hb); [rewrite (bisim_leaf v u Hb); tauto|].
      split; intros [A (t & Ht & Hr)]; split; auto.
      - destruct (Bf v u w t Hb Ht) as (t' & Ht' & Hb'). exists t'. split; auto. now apply (IH t t').
      - destruct (Bb v u w t Hb Ht) as (t' & Ht' & Hb'). exists t'. split; auto. now apply (IH t' t).
    Qed.
    Lemma bisim_same v u : B v u -> sameReadings G v G' u.
    Proof. intros Hb. split; intros n ws; [now apply bisim_reads|now apply bisim_readsAll]. Qed.
  End Bisim.

  Lemma stable_same G ec x y : wf G -> stable G ec -> x < size G -> y < size G ->
    findLeader ec x = findLeader ec y -> sameReadings G x G y.
  Proof.
    intros (_ & We & _) [_ S] Hx Hy E.
    apply (bisim_same G G (fun a b => a < size G /\ b < size G /\ findLeader ec a = findLeader ec b)); auto.
    - intros a b (Ha & Hb & Hab). now apply S.
    - intros a b w t (Ha & Hb & Hab) Ht. destruct (S a b Ha Hb Hab) as (_ & _ & A). destruct (A w t Ht) as (t' & B & C). exists t'. repeat split; auto; eapply We; eauto.
    - intros a b w t (Ha & Hb & Hab) Ht. destruct (S b a Hb Ha (eq_sym Hab)) as (_ & _ & A). destruct (A w t Ht) as (t' & B & C). exists t'. repeat split; auto; eapply We; eauto.
  Qed.

  Lemma minimized_ok G : wf G -> exists fuel ec G' (B : nat -> nat -> Prop),
    minimizeGraph G = Some ec /\ stable G ec /\
    (forall k, fuel <= k -> minimized k G = Some G') /\ wf G' /\
    (forall v u, B v u -> v < size G /\ u < size G' /\ sameReadings G v G' u) /\
    (forall r, In r (roots G) -> exists r', In r' (roots G') /\ B r r') /\
    (forall r', In r' (roots G') -> exists r, In r (roots G) /\ B r r') /\
    (forall u, u < size G' -> exists v, B v u) /\
    (forall v v' u, B v u -> B v' u -> findLeader ec v = findLeader ec v') /\
    (forall u, NoDup (outEdges G' u)) /\ size G' <= getNumClasses ec /\
    (forall v u u', B v u -> B v u' -> u = u').
  Proof.
    intros Wf. destruct (minimize_ok G Wf) as (ec & Em & St). pose proof St as [Ok Sm].
    destruct (create_ok G Wf (compress ec)) as (fuel & G' & B & C0 & C1 & C2 & C3 & C4 & C5 & C6 & C7 & C8 & C9 & C10 & C11).
    { intros x y Hx Hy Hs. apply (proj1 (compress_same (size G) ec x y Ok Hx Hy)) in Hs. apply (Sm x y Hx Hy Hs). }
    { intros x y Hx Hy Hs w t Ht. apply (proj1 (compress_same (size G) ec x y Ok Hx Hy)) in Hs.
      destruct (Sm x y Hx Hy Hs) as (_ & _ & A). destruct (A w t Ht) as (t' & Ht' & E). exists t'. split; auto.
      apply (compress_same (size G)); auto; eapply (proj1 (proj2 Wf)); eauto. }
    exists fuel, ec, G', B. split; auto. split; auto. split; [intros k Hk; unfold minimized; rewrite Em; now apply C0|].
    split.
    { split; auto. split.
      - intros u w t' Ht. assert (Hu : u < size G').
        { destruct (lt_dec u (size G')); auto. unfold outEdges, size in *. rewrite nth_overflow in Ht by lia. contradiction. }
        destruct (C6 u Hu) as (v & Hb). destruct (C3 v u w t' Hb Ht) as (t & _ & Hb'). now apply C1 in Hb'.
      - intros r Hr. destruct (C5 r Hr) as (r0 & _ & Hb). now apply C1 in Hb. }
    split.
    { intros v u Hb. destruct (C1 v u Hb) as (A & D & _). split; auto. split; auto.
      apply (bisim_same G G' B); auto. intros x y Hxy. now apply C1. }
    split; auto. split; auto. split; auto. split.
    { intros v v' u Hb Hb'. apply (compress_same (size G)); auto; [now apply C1 in Hb|now apply C1 in Hb'|]. exact (C7 v v' u Hb Hb'). }
    split; auto. split; auto. apply C11. intros v Hv. now apply (compress_bound (size G)).
  Qed.
End P.
