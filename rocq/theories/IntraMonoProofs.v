(** Proofs about IntraMonoModel. *)
From Coq Require Import List Bool Arith Lia.
From Verif Require Import Assoc IntraMonoModel IntraMonoSpec.
Import ListNotations.

Section P.
  Context {Nd M F : Type} `{EqDec Nd} (c : cfg Nd F) (P : problem Nd M F) (le : M -> M -> Prop).
  Context (Mo : monotone P le) (Gr : graph c P).
  Notation gt n A := (get P n A).
  Notation V := (inV c P).

  Lemma get_aset n m x (A : list (Nd * M)) : gt n (aset m x A) = if eq_dec n m then x else gt n A.
  Proof.
    unfold get, afindd. rewrite afind_aset. destruct (eq_dec n m); [reflexivity|]. reflexivity.
  Qed.
  Lemma get_touch n m (A : list (Nd * M)) : gt n (touch P m A) = gt n A.
  Proof.
    unfold touch. destruct (afind m A) eqn:E; auto. rewrite get_aset. destruct (eq_dec n m) as [->|]; auto.
    unfold get, afindd. now rewrite E.
  Qed.
  Lemma get_touched n s d (A : list (Nd * M)) : gt n (touched c P A s d) = gt n A.
  Proof.
    unfold touched. rewrite get_touch. destruct (isBranchTarget c s d); [|apply get_touch].
    rewrite <- (get_touch n s A). generalize (touch P s A) as B. generalize (preds c d) as ps.
    induction ps as [|p ps IH]; intros B; cbn [fold_left]; auto. rewrite IH. destruct (eqb p s); auto. apply get_touch.
  Qed.

  (** ** One step *)
  Lemma outFor_lub A s d : V s -> In d (succs c s) ->
    isLub le (fun y => exists p, In p (preds c d) /\ y = outOf P A p) (outFor c P A s d).
  Proof.
    intros Hs Hd. pose proof (succ_pred _ _ Gr s d Hs Hd) as Hp. unfold outFor.
    destruct (isBranchTarget c s d) eqn:Eb.
    - assert (G : forall ps o,
        le o (fold_left (fun o p => if eqb p s then o else merge P o (outOf P A p)) ps o) /\
        (forall p, In p ps -> p <> s -> le (outOf P A p) (fold_left (fun o p => if eqb p s then o else merge P o (outOf P A p)) ps o)) /\
        (forall u, le o u -> (forall p, In p ps -> le (outOf P A p) u) -> le (fold_left (fun o p => if eqb p s then o else merge P o (outOf P A p)) ps o) u)).
      { induction ps as [|p ps IH]; intros o; cbn [fold_left].
        - split; [apply (le_refl _ _ Mo)|]. split; [intros ? []|auto].
        - destruct (IH (if eqb p s then o else merge P o (outOf P A p))) as (I1 & I2 & I3). split; [|split].
          + eapply (le_trans _ _ Mo); [|exact I1]. destruct (eqb p s); [apply (le_refl _ _ Mo)|apply (merge_l _ _ Mo)].
          + intros q [<-|Hq] Hne; [|auto]. eapply (le_trans _ _ Mo); [|exact I1].
            destruct (eqb p s) eqn:E; [apply eqb_eq in E; contradiction|apply (merge_r _ _ Mo)].
          + intros u Hu Hps. apply I3; [|intros q Hq; apply Hps; cbn; auto].
            destruct (eqb p s); [auto|]. apply (merge_least _ _ Mo); auto. apply Hps. cbn. auto. }
      destruct (G (preds c d) (outOf P A s)) as (G1 & G2 & G3). split.
      + intros y (p & Hp' & ->). destruct (eq_dec p s) as [->|Hne]; auto.
      + intros u Hu. apply G3; [apply Hu; eauto|]. intros p Hp'. apply Hu. eauto.
    - split.
      + intros y (p & Hp' & ->). rewrite (single_pred _ _ Gr s d p Hs Hd Eb Hp'). apply (le_refl _ _ Mo).
      + intros u Hu. apply Hu. eauto.
  Qed.

  Definition edgesIn (wl : list (Nd * Nd)) : Prop := forall s d, In (s, d) wl -> V s /\ In d (succs c s).
  Definition unchangedBut (A A' : list (Nd * M)) (d : Nd) : Prop := forall n, n <> d -> gt n A' = gt n A.

  Lemma step_cases A s d wl :
    (le (outFor c P A s d) (gt d A) /\ le (gt d A) (outFor c P A s d) /\
     (forall n, gt n (tab (step c P A s d wl)) = gt n A) /\ worklist (step c P A s d wl) = wl) \/
    (~ (le (outFor c P A s d) (gt d A) /\ le (gt d A) (outFor c P A s d)) /\
     gt d (tab (step c P A s d wl)) = outFor c P A s d /\
     (forall n, n <> d -> gt n (tab (step c P A s d wl)) = gt n A) /\
     worklist (step c P A s d wl) = wl ++ map (pair d) (succs c d)).
  Proof.
    unfold step. rewrite get_touched. destruct (equal_to P (outFor c P A s d) (gt d A)) eqn:E.
    - left. apply (equal_to_ok _ _ Mo) in E as [E1 E2]. cbn. split; auto. split; auto. split; auto. intros n. apply get_touched.
    - right. cbn [tab worklist]. split; [intros C; apply (equal_to_ok _ _ Mo) in C; congruence|].
      split; [rewrite get_aset; destruct (eq_dec d d); congruence|]. split; auto.
      intros n Hn. rewrite get_aset. destruct (eq_dec n d); [contradiction|apply get_touched].
  Qed.

  (** a property of tables that steps keep holds at the end *)
  Lemma loop_inv (I : analysis -> list (Nd * Nd) -> Prop) :
    (forall A s d wl, edgesIn ((s, d) :: wl) -> I A ((s, d) :: wl) -> I (tab (step c P A s d wl)) (worklist (step c P A s d wl))) ->
    forall fuel st A', edgesIn (worklist st) -> I (tab st) (worklist st) -> loop c P fuel st = Some A' -> I A' [].
  Proof.
    intros Hstep. induction fuel as [|fuel IH]; intros [A wl] A' He Hi; cbn [loop tab worklist] in *.
    - destruct wl as [|[s d] wl]; [intros [= <-]; auto|discriminate].
    - destruct wl as [|[s d] wl]; [intros [= <-]; auto|]. apply IH.
      + destruct (He s d) as [Hs Hd]; [cbn; auto|]. assert (Ve : edgesIn wl) by (intros a b Hab; apply He; cbn; auto).
        destruct (step_cases A s d wl) as [(_ & _ & _ & ->)|(_ & _ & _ & ->)]; auto.
        intros a b Hab. apply in_app_iff in Hab as [Hab|Hab]; auto. apply in_map_iff in Hab as (m & Heq & Hm).
        injection Heq as <- <-. split; auto. exact (succs_closed _ _ Gr s d Hs Hd).
      + apply Hstep; auto.
  Qed.

  (** ** The invariants *)
  Definition coversEdges (A : analysis) (wl : list (Nd * Nd)) : Prop :=
    forall s d, V s -> In d (succs c s) -> In (s, d) wl \/ le (outOf P A s) (gt d A).
  Lemma covers_step A s d wl : edgesIn ((s, d) :: wl) -> coversEdges A ((s, d) :: wl) ->
    coversEdges (tab (step c P A s d wl)) (worklist (step c P A s d wl)).
  Proof.
    intros He I. destruct (He s d) as [Hs Hd]; [cbn; auto|]. destruct (outFor_lub A s d Hs Hd) as [Ub _].
    intros s1 d1 Hs1 Hd1. pose proof (succ_pred _ _ Gr s1 d1 Hs1 Hd1) as Hp1. unfold outOf.
    destruct (step_cases A s d wl) as [(E1 & E2 & E3 & ->)|(E1 & E2 & E3 & ->)].
    - rewrite !E3. destruct (I s1 d1 Hs1 Hd1) as [[Heq|Hin]|Hle]; auto.
      injection Heq as -> ->. right. eapply (le_trans _ _ Mo); [|exact E1]. apply Ub. exists s1. auto.
    - destruct (eq_dec s1 d) as [->|Hn]; [left; apply in_or_app; right; now apply in_map|].
      rewrite (E3 s1 Hn). destruct (eq_dec d1 d) as [->|Hn1].
      + rewrite E2. right. apply Ub. exists s1. auto.
      + rewrite (E3 d1 Hn1). destruct (I s1 d1 Hs1 Hd1) as [[Heq|Hin]|Hle]; auto.
        * injection Heq as -> ->. contradiction.
        * left. apply in_or_app. auto.
  Qed.

  Definition below (X : Nd -> M) (A : analysis) : Prop := forall n, V n -> le (gt n A) (X n).
  Lemma below_step X A s d wl : (forall n m, V m -> In n (preds c m) -> le (normalFlow P n (X n)) (X m)) ->
    V s -> In d (succs c s) -> below X A -> below X (tab (step c P A s d wl)).
  Proof.
    intros HX Hs Hd I n Hn. destruct (outFor_lub A s d Hs Hd) as [_ Lb].
    pose proof (succs_closed _ _ Gr s d Hs Hd) as Vd.
    assert (Ho : le (outFor c P A s d) (X d)).
    { apply Lb. intros y (p & Hp & ->). eapply (le_trans _ _ Mo); [|apply (HX p d Vd Hp)].
      apply (flow_mono _ _ Mo). apply I. exact (preds_closed _ _ Gr d p Vd Hp). }
    destruct (step_cases A s d wl) as [(E1 & E2 & E3 & _)|(E1 & E2 & E3 & _)].
    - rewrite E3. auto.
    - destruct (eq_dec n d) as [->|Hne]; [now rewrite E2|rewrite E3; auto].
  Qed.

  (** values only grow, where they are computed *)
  Definition ascending (A : analysis) : Prop :=
    forall d, V d -> preds c d <> [] -> forall u, (forall p, In p (preds c d) -> le (outOf P A p) u) -> le (gt d A) u.
  Lemma grows A s d wl : V s -> In d (succs c s) -> ascending A -> forall n, le (gt n A) (gt n (tab (step c P A s d wl))).
  Proof.
    intros Hs Hd I n. destruct (outFor_lub A s d Hs Hd) as [Ub _].
    destruct (step_cases A s d wl) as [(E1 & E2 & E3 & _)|(E1 & E2 & E3 & _)].
    - rewrite E3. apply (le_refl _ _ Mo).
    - destruct (eq_dec n d) as [->|Hne]; [|rewrite E3; auto; apply (le_refl _ _ Mo)].
      rewrite E2. apply I; [exact (succs_closed _ _ Gr s d Hs Hd)| |intros p Hp; apply Ub; eauto].
      pose proof (succ_pred _ _ Gr s d Hs Hd) as Hp. destruct (preds c d); [contradiction|discriminate].
  Qed.
  Lemma ascending_step A s d wl : V s -> In d (succs c s) -> ascending A -> ascending (tab (step c P A s d wl)).
  Proof.
    intros Hs Hd I d1 Vd1 Hp1 u Hu. pose proof (grows A s d wl Hs Hd I) as G.
    assert (Hu' : forall p, In p (preds c d1) -> le (outOf P A p) u).
    { intros p Hp. eapply (le_trans _ _ Mo); [|apply (Hu p Hp)]. apply (flow_mono _ _ Mo). apply G. }
    destruct (step_cases A s d wl) as [(E1 & E2 & E3 & _)|(E1 & E2 & E3 & _)].
    - rewrite E3. now apply I.
    - destruct (eq_dec d1 d) as [->|Hne]; [|rewrite E3; auto].
      rewrite E2. destruct (outFor_lub A s d Hs Hd) as [_ Lb]. apply Lb. intros y (p & Hp & ->). auto.
  Qed.
  (** entries without predecessors keep their value *)
  Lemma fixed_step A s d wl n : V s -> In d (succs c s) -> preds c n = [] -> gt n (tab (step c P A s d wl)) = gt n A.
  Proof.
    intros Hs Hd Hn. destruct (step_cases A s d wl) as [(E1 & E2 & E3 & _)|(E1 & E2 & E3 & _)]; auto.
    apply E3. intros ->. pose proof (succ_pred _ _ Gr s d Hs Hd) as Hp. rewrite Hn in Hp. contradiction.
  Qed.

  (** every value is a join of values that arrive along paths *)
  Inductive joined (n : Nd) : M -> Prop :=
  | joined_flow : forall x y, flows c P n x -> le y x -> joined n y
  | joined_merge : forall x y z, joined n x -> joined n y -> le z (merge P x y) -> joined n z.
  Lemma joined_le n x u : joined n x -> (forall y, flows c P n y -> le y u) -> le x u.
  Proof.
    induction 1 as [x y Hf Hle|x y z _ IHx _ IHy Hle]; intros Hu.
    - eapply (le_trans _ _ Mo); eauto.
    - eapply (le_trans _ _ Mo); [exact Hle|]. apply (merge_least _ _ Mo); auto.
  Qed.
  Lemma joined_down n x y : joined n x -> le y x -> joined n y.
  Proof.
    intros J Hle. destruct J as [x z Hf Hz|x1 x2 z J1 J2 Hz].
    - apply (joined_flow n x y Hf). exact (le_trans _ _ Mo _ _ _ Hle Hz).
    - apply (joined_merge n x1 x2 y J1 J2). exact (le_trans _ _ Mo _ _ _ Hle Hz).
  Qed.
  Lemma joined_flowed n m x : distributive P le -> In m (succs c n) -> joined n x -> joined m (normalFlow P n x).
  Proof.
    intros D Hm. induction 1 as [x y Hf Hle|x y z _ IHx _ IHy Hle].
    - apply (joined_flow m (normalFlow P n x)); [now apply flows_step|]. now apply (flow_mono _ _ Mo).
    - eapply joined_merge; [exact IHx|exact IHy|]. eapply (le_trans _ _ Mo); [|apply D]. now apply (flow_mono _ _ Mo).
  Qed.
  Definition allJoined (A : analysis) : Prop := forall n, V n -> joined n (gt n A).
  Lemma joined_step A s d wl : distributive P le -> predsExact c P -> V s -> In d (succs c s) ->
    allJoined A -> allJoined (tab (step c P A s d wl)).
  Proof.
    intros D Pe Hs Hd I n Hn. pose proof (succs_closed _ _ Gr s d Hs Hd) as Vd.
    assert (Jp : forall p, In p (preds c d) -> joined d (outOf P A p)).
    { intros p Hp. apply joined_flowed; auto. apply I. exact (preds_closed _ _ Gr d p Vd Hp). }
    assert (Jo : joined d (outFor c P A s d)).
    { pose proof (succ_pred _ _ Gr s d Hs Hd) as Hp. unfold outFor. destruct (isBranchTarget c s d); [|auto].
      assert (G : forall ps o, joined d o -> (forall p, In p ps -> joined d (outOf P A p)) ->
        joined d (fold_left (fun o p => if eqb p s then o else merge P o (outOf P A p)) ps o)).
      { induction ps as [|p ps IH]; intros o Ho Hps; cbn [fold_left]; auto. apply IH; [|intros q Hq; apply Hps; cbn; auto].
        destruct (eqb p s); auto. eapply joined_merge; [exact Ho|apply Hps; cbn; auto|apply (le_refl _ _ Mo)]. }
      apply G; auto. }
    destruct (step_cases A s d wl) as [(E1 & E2 & E3 & _)|(E1 & E2 & E3 & _)].
    - rewrite E3. auto.
    - destruct (eq_dec n d) as [->|Hne]; [now rewrite E2|rewrite E3; auto].
  Qed.

  (** ** The initial state *)
  Lemma insertNew_get n x A m : gt n (insertNew x A m) = match afind n A with Some y => y | None => if eq_dec n m then x else emptyM P end.
  Proof.
    unfold insertNew. destruct (afind m A) eqn:E.
    - unfold get, afindd. destruct (afind n A) eqn:E'; auto. destruct (eq_dec n m); [congruence|auto].
    - rewrite get_aset. unfold get, afindd. destruct (eq_dec n m) as [->|]; [now rewrite E|]. now destruct (afind n A).
  Qed.
  Definition isTop (A : analysis) : Prop := forall n x, afind n A = Some x -> x = allTop P.
  Lemma insertNews_ok : forall ns A, isTop A -> isTop (fold_left (insertNew (allTop P)) ns A) /\
    (forall n, (In n ns \/ afind n A <> None) -> afind n (fold_left (insertNew (allTop P)) ns A) <> None).
  Proof.
    induction ns as [|m ns IH]; intros A T; cbn [fold_left]; [split; auto; intros n [[]|]; auto|].
    assert (T1 : isTop (insertNew (allTop P) A m)).
    { intros n x. unfold insertNew. destruct (afind m A); [apply T|]. rewrite afind_aset. destruct (eq_dec n m); [intros [= <-]; auto|apply T]. }
    assert (N1 : forall n, n = m \/ afind n A <> None -> afind n (insertNew (allTop P) A m) <> None).
    { intros n Hn. unfold insertNew. destruct (afind m A) eqn:E; [destruct Hn as [->|]; congruence|].
      rewrite afind_aset. destruct (eq_dec n m); [discriminate|]. destruct Hn; congruence. }
    destruct (IH _ T1) as [I1 I2]. split; auto. intros n [[->|Hn]|Hn]; apply I2; auto.
  Qed.
  Lemma entries_ok : forall fs st, isTop (tab st) ->
    let st' := fold_left (addEntry c P) fs st in
    isTop (tab st') /\
    (forall n, ((exists f, In f fs /\ In n (instructions c f)) \/ afind n (tab st) <> None) -> afind n (tab st') <> None) /\
    (forall e, In e (worklist st') <-> (exists f, In f fs /\ In e (allEdges c f)) \/ In e (worklist st)).
  Proof.
    induction fs as [|f fs IH]; intros st T; cbn [fold_left].
    - split; auto. split; [intros n [(f & [] & _)|]; auto|]. intros e. split; auto. intros [(f & [] & _)|]; auto.
    - destruct (insertNews_ok (instructions c f) (tab st) T) as [T1 N1].
      destruct (IH (addEntry c P st f)) as (I1 & I2 & I3); auto. cbn [addEntry tab worklist] in *. split; auto. split.
      + intros n Hn. apply I2. destruct Hn as [(g & [->|Hg] & Hn)|Hn]; eauto.
      + intros e. rewrite I3, in_app_iff. split.
        * intros [(g & Hg & He)|[He|He]]; auto; left; [exists g|exists f]; cbn; auto.
        * intros [(g & [->|Hg] & He)|He]; auto. left. eauto.
  Qed.

  Lemma init_edges e : In e (worklist (initialize c P)) <-> V (fst e) /\ In (snd e) (succs c (fst e)).
  Proof.
    unfold initialize. cbn [worklist]. destruct (entries_ok (entryPoints P) (mkState [] [])) as (_ & _ & I); [intros n x; discriminate|].
    rewrite I. unfold allEdges, inV. destruct e as [s d]. cbn [fst snd worklist]. split.
    - intros [(f & Hf & He)|[]]. apply in_flat_map in He as (n & Hn & He). apply in_map_iff in He as (m & Heq & Hm).
      injection Heq as -> ->. eauto.
    - intros [(f & Hf & Hn) Hd]. left. exists f. split; auto. apply in_flat_map. exists s. split; auto. now apply in_map.
  Qed.
  Lemma init_edgesIn : edgesIn (worklist (initialize c P)).
  Proof. intros s d Hin. now apply (init_edges (s, d)) in Hin. Qed.

  Lemma addSeed_get n A sd : gt n (addSeed P A sd) = if eq_dec n (fst sd) then insertAll P (gt (fst sd) A) (snd sd) else gt n A.
  Proof. unfold addSeed. apply get_aset. Qed.
  Lemma seeds_get : forall ss A, NoDup (map fst ss) -> forall n,
    (forall facts, In (n, facts) ss -> gt n (fold_left (addSeed P) ss A) = insertAll P (gt n A) facts) /\
    ((forall facts, ~ In (n, facts) ss) -> gt n (fold_left (addSeed P) ss A) = gt n A).
  Proof.
    induction ss as [|[m x] ss IH]; intros A Nd' n; cbn [fold_left map]; [split; [intros ? []|auto]|].
    inversion Nd' as [|? ? Hm Nd'']; subst. destruct (IH (addSeed P A (m, x)) Nd'' n) as [I1 I2]. split.
    - intros facts [Heq|Hin].
      + injection Heq as -> ->. rewrite I2 by (intros f Hf; apply Hm, in_map_iff; exists (n, f); auto).
        rewrite addSeed_get. cbn [fst snd]. destruct (eq_dec n n); congruence.
      + rewrite (I1 _ Hin), addSeed_get. cbn [fst]. destruct (eq_dec n m) as [->|]; auto.
        exfalso. apply Hm, in_map_iff. exists (m, facts). auto.
    - intros Hno. rewrite I2 by (intros f Hf; apply (Hno f); cbn; auto).
      rewrite addSeed_get. cbn [fst snd]. destruct (eq_dec n m) as [->|]; auto. exfalso. apply (Hno x). cbn. auto.
  Qed.
  Lemma init_get n : NoDup (map fst (initialSeeds P)) -> V n -> starts c P n (gt n (tab (initialize c P))).
  Proof.
    intros Ns Vn. unfold initialize. cbn [tab].
    destruct (entries_ok (entryPoints P) (mkState [] [])) as (T & N & _); [intros m x; discriminate|].
    set (A := tab (fold_left (addEntry c P) (entryPoints P) (mkState [] []))) in *.
    assert (Et : gt n A = allTop P).
    { destruct Vn as (f & Hf & Hn). unfold get, afindd. destruct (afind n A) as [x|] eqn:E; [exact (T n x E)|].
      exfalso. apply (N n); auto. left. exists f. split; auto. apply (nodes_instructions _ _ Gr); auto. }
    destruct (seeds_get (initialSeeds P) A Ns n) as [S1 S2].
    destruct (in_dec eq_dec n (map fst (initialSeeds P))) as [Hin|Hno].
    - apply in_map_iff in Hin as ([m x] & <- & Hin). cbn [fst] in *. left. exists x. split; auto. rewrite (S1 x Hin). congruence.
    - right. split; auto. assert (Hno' : forall facts, ~ In (n, facts) (initialSeeds P)) by (intros f Hf; apply Hno, in_map_iff; exists (n, f); auto).
      split; auto. rewrite S2; auto.
  Qed.
  Lemma starts_fun n x y : NoDup (map fst (initialSeeds P)) -> starts c P n x -> starts c P n y -> x = y.
  Proof.
    intros Ns [(f & Hf & ->)|(_ & Hf & ->)] [(g & Hg & ->)|(_ & Hg & ->)]; auto.
    - f_equal. clear -Ns Hf Hg. induction (initialSeeds P) as [|[m z] l IH]; [contradiction|]. cbn in Ns. inversion Ns; subst.
      destruct Hf as [Hf|Hf], Hg as [Hg|Hg].
      + congruence.
      + injection Hf as -> ->. exfalso. apply H1. apply in_map_iff. exists (n, g). auto.
      + injection Hg as -> ->. exfalso. apply H1. apply in_map_iff. exists (n, f). auto.
      + auto.
    - exfalso. eapply Hg; eauto.
    - exfalso. eapply Hf; eauto.
  Qed.

  (** ** The end *)
  Lemma joined_out n x u : distributive P le -> joined n x -> (forall y, flows c P n y -> le (normalFlow P n y) u) -> le (normalFlow P n x) u.
  Proof.
    intros D J Hu. induction J as [x y Hf Hle|x y z _ IHx _ IHy Hle].
    - eapply (le_trans _ _ Mo); [|apply Hu; exact Hf]. now apply (flow_mono _ _ Mo).
    - eapply (le_trans _ _ Mo); [apply (flow_mono _ _ Mo); exact Hle|]. eapply (le_trans _ _ Mo); [apply D|].
      apply (merge_least _ _ Mo); auto.
  Qed.

  Definition present (A : list (Nd * M)) : Prop := forall n, V n -> afind n A <> None.
  Lemma present_aset A n x : present A -> present (aset n x A).
  Proof. intros I m Hm. rewrite afind_aset. destruct (eq_dec m n); [discriminate|auto]. Qed.
  Lemma present_touch A n : present A -> present (touch P n A).
  Proof. intros I. unfold touch. destruct (afind n A); auto. now apply present_aset. Qed.
  Lemma present_touched A s d : present A -> present (touched c P A s d).
  Proof.
    intros I. unfold touched. apply present_touch. destruct (isBranchTarget c s d); [|now apply present_touch].
    apply (present_touch A s) in I. revert I. generalize (touch P s A) as B. generalize (preds c d) as ps.
    induction ps as [|p ps IH]; intros B I; cbn [fold_left]; auto. apply IH. destruct (eqb p s); auto. now apply present_touch.
  Qed.
  Lemma present_step A s d wl : present A -> present (tab (step c P A s d wl)).
  Proof.
    intros I. apply (present_touched A s d) in I. unfold step. destruct (equal_to _ _ _); cbn; auto. now apply present_aset.
  Qed.
  Lemma present_init : present (tab (initialize c P)).
  Proof.
    unfold initialize. cbn [tab]. destruct (entries_ok (entryPoints P) (mkState [] [])) as (_ & N & _); [intros m x; discriminate|].
    assert (G : present (tab (fold_left (addEntry c P) (entryPoints P) (mkState [] [])))).
    { intros n (f & Hf & Hn). apply N. left. exists f. split; auto. now apply (nodes_instructions _ _ Gr). }
    revert G. generalize (tab (fold_left (addEntry c P) (entryPoints P) (mkState [] []))) as A. generalize (initialSeeds P) as ss.
    induction ss as [|sd ss IH]; intros A G; cbn [fold_left]; auto. apply IH. now apply present_aset.
  Qed.

  Lemma results_get (A : list (Nd * M)) n : afind n A <> None ->
    gt n (map (fun e => (fst e, normalFlow P (fst e) (snd e))) A) = normalFlow P n (gt n A).
  Proof.
    unfold get, afindd. induction A as [|[m x] A IH]; cbn; [congruence|]. destruct (eq_dec n m) as [->|]; auto.
  Qed.

  Lemma init_ascending : entrySeeds c P -> ascending (tab (initialize c P)).
  Proof.
    intros [Ns Es] d Vd Hp u _. destruct (init_get d Ns Vd) as [(f & Hf & _)|(_ & _ & ->)]; [|apply (top_least _ _ Mo)].
    apply Es in Hf. tauto.
  Qed.

  Lemma final fuel A : entrySeeds c P -> loop c P fuel (initialize c P) = Some A ->
    coversEdges A [] /\ ascending A /\ present A /\
    (forall n, V n -> preds c n = [] -> starts c P n (gt n A)) /\
    (forall X, (forall n x, starts c P n x -> le x (X n)) ->
      (forall n m, V m -> In n (preds c m) -> le (normalFlow P n (X n)) (X m)) -> below X A) /\
    (distributive P le -> predsExact c P -> allJoined A).
  Proof.
    intros Es Hl. pose proof Es as [Ns _]. pose proof init_edgesIn as Ei.
    split; [|split; [|split; [|split; [|split]]]].
    - apply (loop_inv (fun A wl => coversEdges A wl)) with (fuel := fuel) (st := initialize c P); auto.
      + intros. now apply covers_step.
      + intros s d Hs Hd. left. now apply (init_edges (s, d)).
    - apply (loop_inv (fun A wl => ascending A)) with (fuel := fuel) (st := initialize c P); auto.
      + intros B s d wl He I. destruct (He s d) as [Hs Hd]; [cbn; auto|]. now apply ascending_step.
      + now apply init_ascending.
    - apply (loop_inv (fun A wl => present A)) with (fuel := fuel) (st := initialize c P); auto.
      + intros B s d wl He I. now apply present_step.
      + apply present_init.
    - intros n Vn Hn. apply (loop_inv (fun A wl => starts c P n (gt n A))) with (fuel := fuel) (st := initialize c P); auto.
      + intros B s d wl He I. destruct (He s d) as [Hs Hd]; [cbn; auto|]. rewrite fixed_step; auto.
      + now apply init_get.
    - intros X X1 X2. apply (loop_inv (fun A wl => below X A)) with (fuel := fuel) (st := initialize c P); auto.
      + intros B s d wl He I. destruct (He s d) as [Hs Hd]; [cbn; auto|]. now apply below_step.
      + intros n Vn. apply X1. now apply init_get.
    - intros D Pe. apply (loop_inv (fun A wl => allJoined A)) with (fuel := fuel) (st := initialize c P); auto.
      + intros B s d wl He I. destruct (He s d) as [Hs Hd]; [cbn; auto|]. now apply joined_step.
      + intros n Vn. apply (joined_flow n (gt n (tab (initialize c P)))); [|apply (le_refl _ _ Mo)].
        constructor. now apply init_get.
  Qed.
  Lemma flows_below fuel A n x : entrySeeds c P -> loop c P fuel (initialize c P) = Some A -> flows c P n x -> V n /\ le x (gt n A).
  Proof.
    intros Es Hl Hf. destruct (final fuel A Es Hl) as (Cov & _ & _ & Fix & _). pose proof Es as [Ns Es'].
    induction Hf as [n x Hs|n m x Hf [IHV IH] Hm].
    - assert (Vn : V n) by (destruct Hs as [(f & Hf & _)|(Vn & _)]; [now apply Es' in Hf|auto]).
      split; auto. destruct Hs as [(f & Hf & ->)|(_ & _ & ->)]; [|apply (top_least _ _ Mo)].
      destruct (Es' _ _ Hf) as [_ Hp]. specialize (Fix n Vn Hp).
      rewrite (starts_fun n (gt n A) (insertAll P (allTop P) f) Ns Fix); [apply (le_refl _ _ Mo)|]. left. eauto.
    - split; [exact (succs_closed _ _ Gr n m IHV Hm)|]. eapply (le_trans _ _ Mo); [apply (flow_mono _ _ Mo); exact IH|].
      destruct (Cov n m IHV Hm) as [[]|]; auto.
  Qed.

  (** ** Termination *)
  Section Term.
    Context (ok : M -> Prop) (rank : M -> nat) (top : nat).
    Context (ok_flow : forall n x, ok x -> ok (normalFlow P n x)) (ok_merge : forall x y, ok x -> ok y -> ok (merge P x y)).
    Context (ok_start : forall n x, starts c P n x -> ok x).
    Context (rank_top : forall x, ok x -> rank x <= top) (rank_lt : forall x y, ok x -> ok y -> le x y -> ~ le y x -> rank x < rank y).

    Definition okTab (A : analysis) : Prop := forall n, V n -> ok (gt n A).
    Definition vs : list Nd := nodup eq_dec (flat_map (nodes c) (entryPoints P)).
    Lemma vs_V n : In n vs <-> V n.
    Proof. unfold vs. rewrite nodup_In, in_flat_map. reflexivity. Qed.
    Definition slack (A : analysis) : nat := list_sum (map (fun n => top - rank (gt n A)) vs).

    Lemma outFor_okv A s d : V s -> In d (succs c s) -> okTab A -> ok (outFor c P A s d).
    Proof.
      intros Hs Hd I. pose proof (succs_closed _ _ Gr s d Hs Hd) as Vd.
      assert (O : forall p, V p -> ok (outOf P A p)) by (intros p Vp; apply ok_flow, I, Vp).
      unfold outFor. destruct (isBranchTarget c s d); [|auto].
      assert (G : forall ps o, ok o -> (forall p, In p ps -> V p) ->
        ok (fold_left (fun o p => if eqb p s then o else merge P o (outOf P A p)) ps o)).
      { induction ps as [|p ps IH]; intros o Ho Hps; cbn [fold_left]; auto. apply IH; [|intros q Hq; apply Hps; cbn; auto].
        destruct (eqb p s); auto. apply ok_merge; auto. apply O, Hps. cbn. auto. }
      apply G; auto. intros p Hp. exact (preds_closed _ _ Gr d p Vd Hp).
    Qed.

    Lemma sum_le (f g : Nd -> nat) l : (forall n, In n l -> f n <= g n) -> list_sum (map f l) <= list_sum (map g l).
    Proof.
      unfold list_sum. induction l as [|x l IH]; cbn; intros Hl; [lia|]. specialize (IH ltac:(auto)). specialize (Hl x ltac:(auto)). lia.
    Qed.
    Lemma sum_lt (f g : Nd -> nat) l d : (forall n, In n l -> f n <= g n) -> In d l -> f d < g d -> list_sum (map f l) < list_sum (map g l).
    Proof.
      induction l as [|x l IH]; intros Hl Hd Hlt; [contradiction|].
      pose proof (sum_le f g l ltac:(intros; apply Hl; cbn; auto)) as L. pose proof (Hl x ltac:(cbn; auto)) as Lx.
      unfold list_sum in *. cbn. destruct Hd as [->|Hd]; [lia|]. specialize (IH ltac:(intros; apply Hl; cbn; auto) Hd Hlt). lia.
    Qed.

    Lemma terminates : forall m k st, slack (tab st) = m -> length (worklist st) = k ->
      edgesIn (worklist st) -> ascending (tab st) -> okTab (tab st) ->
      exists fuel A, forall j, fuel <= j -> loop c P j st = Some A.
    Proof.
      induction m as [m IHm] using lt_wf_ind. induction k as [k IHk] using lt_wf_ind. intros [A wl] Hm Hk He Ha Ho. cbn [tab worklist] in *.
      destruct wl as [|[s d] wl].
      { exists 0, A. intros [|j] _; reflexivity. }
      destruct (He s d) as [Hs Hd]; [cbn; auto|]. pose proof (succs_closed _ _ Gr s d Hs Hd) as Vd.
      assert (Ve : edgesIn wl) by (intros a b Hab; apply He; cbn; auto).
      set (st' := step c P A s d wl).
      pose proof (ascending_step A s d wl Hs Hd Ha) as Ha'. pose proof (grows A s d wl Hs Hd Ha) as Hg. fold st' in Ha', Hg.
      pose proof (outFor_okv A s d Hs Hd Ho) as Hok.
      assert (Hstep : exists fuel A', forall j, fuel <= j -> loop c P j st' = Some A').
      { destruct (step_cases A s d wl) as [(E1 & E2 & E3 & E4)|(E1 & E2 & E3 & E4)]; fold st' in E3, E4; [|fold st' in E2].
        - apply (IHk (length wl)) ; auto.
          + subst k. cbn. lia.
          + rewrite <- Hm. unfold slack. f_equal. apply map_ext. intros n. now rewrite E3.
          + now rewrite E4.
          + now rewrite E4.
          + intros n Vn. rewrite E3. auto.
        - assert (Ho' : okTab (tab st')).
          { intros n Vn. destruct (eq_dec n d) as [->|Hn]; [now rewrite E2|rewrite E3; auto]. }
          apply (IHm (slack (tab st'))) with (k := length (worklist st')); auto.
          + subst m. unfold slack. apply sum_lt with (d := d).
            * intros n Hn. apply vs_V in Hn. destruct (eq_dec n d) as [->|Hne]; [|rewrite E3; auto].
              rewrite E2. assert (rank (gt d A) < rank (outFor c P A s d)); [|lia].
              apply rank_lt; auto; [rewrite <- E2; apply Hg|]. intros C. apply E1. split; auto. rewrite <- E2. apply Hg.
            * now apply vs_V.
            * rewrite E2. assert (rank (gt d A) < rank (outFor c P A s d)).
              { apply rank_lt; auto; [rewrite <- E2; apply Hg|]. intros C. apply E1. split; auto. rewrite <- E2. apply Hg. }
              pose proof (rank_top _ Hok). lia.
          + rewrite E4. intros a b Hab. apply in_app_iff in Hab as [Hab|Hab]; auto. apply in_map_iff in Hab as (q & Heq & Hq).
            injection Heq as <- <-. auto. }
      destruct Hstep as (fuel & A' & Hf). exists (S fuel), A'. intros [|j] Hj; [lia|]. cbn [loop worklist tab]. apply Hf. lia.
    Qed.
    Lemma init_terminates : entrySeeds c P -> exists fuel A, forall j, fuel <= j -> loop c P j (initialize c P) = Some A.
    Proof.
      intros Es. eapply terminates; try reflexivity; [apply init_edgesIn|now apply init_ascending|].
      intros n Vn. eapply ok_start. apply init_get; auto. apply Es.
    Qed.
  End Term.
End P.
