(** Proofs about MonoUninitModel. *)
From Coq Require Import List Bool Arith ZArith Lia.
From Verif Require Import Assoc MonoUninitModel MonoUninitSpec.
From Verif Require IntraMonoModel IntraMonoSpec IntraMonoProofs IntraMonoCover.
Import ListNotations.

Lemma has_ok x m : has x m = true <-> In x m.
Proof.
  unfold has. rewrite existsb_exists. split.
  - intros (y & I & E). apply eqb_eq in E. subst y. exact I.
  - intros I. exists x. split; [exact I|]. apply eqb_refl.
Qed.
Lemma in_add x y m : In x (add m y) <-> x = y \/ In x m.
Proof.
  unfold add. destruct (has y m) eqn:E; [|cbn; intuition congruence]. apply has_ok in E. split; [auto|]. intros [->|]; auto.
Qed.
Lemma in_erase x y m : In x (erase y m) <-> x <> y /\ In x m.
Proof.
  unfold erase. rewrite filter_In, negb_true_iff. split.
  - intros [I E]. split; [|exact I]. intros ->. rewrite (eqb_refl y) in E. discriminate.
  - intros [N I]. split; [exact I|]. destruct (eqb y x) eqn:E; [|reflexivity]. apply eqb_eq in E. congruence.
Qed.
Lemma in_merge x l r : In x (merge l r) <-> In x l /\ In x r.
Proof. unfold merge. rewrite filter_In, has_ok. tauto. Qed.
Lemma equal_to_ok l r : equal_to l r = true <-> forall x, In x l <-> In x r.
Proof.
  unfold equal_to. rewrite andb_true_iff, !forallb_forall. split.
  - intros [A B] x. split; intros I; apply has_ok; auto.
  - intros E. split; intros x I; apply has_ok, E, I.
Qed.
Lemma sets_dec code n p : {sets code n p} + {~ sets code n p}.
Proof.
  unfold sets. destruct (code n) as [|v int q| |] eqn:C; try (right; intros [(z & E)|E]; discriminate).
  destruct int; [|right; intros [(z & E)|E]; discriminate].
  destruct (eq_dec q p) as [->|N]; [|right; intros [(z & E)|E]; congruence].
  destruct v as [k|z| |k]; [right; intros [(z & E)|E]; discriminate|left; eauto|left; auto|right; intros [(z & E)|E]; discriminate].
Defined.
Lemma in_flow code n x m : In x (flow n (code n) m) <-> (code n = IAlloca /\ x = VInst n) \/ (In x m /\ ~ sets code n x).
Proof.
  unfold sets. destruct (code n) as [|v int q| |] eqn:C; cbn [flow].
  - rewrite in_add. split; [intros [E|I]; [auto|right; split; [exact I|intros [(z & E)|E]; discriminate]]|intros [[_ E]|[I _]]; auto].
  - destruct int; cbn [andb].
    + destruct v as [k|z| |k]; cbn [constantData]; rewrite ?in_erase.
      * split; [intros I; right; split; [exact I|intros [(z & E)|E]; discriminate]|intros [[E _]|[I _]]; [discriminate|exact I]].
      * split; [intros [N I]; right; split; [exact I|intros [(y & E)|E]; [|discriminate]; congruence]|].
        intros [[E _]|[I N]]; [discriminate|]. split; [|exact I]. intros ->. apply N. left. eauto.
      * split; [intros [N I]; right; split; [exact I|intros [(y & E)|E]; [discriminate|]; congruence]|].
        intros [[E _]|[I N]]; [discriminate|]. split; [|exact I]. intros ->. apply N. right. reflexivity.
      * split; [intros I; right; split; [exact I|intros [(z & E)|E]; discriminate]|intros [[E _]|[I _]]; [discriminate|exact I]].
    + split; [intros I; right; split; [exact I|intros [(z & E)|E]; discriminate]|intros [[E _]|[I _]]; [discriminate|exact I]].
  - split; [intros I; right; split; [exact I|intros [(z & E)|E]; discriminate]|intros [[E _]|[I _]]; [discriminate|exact I]].
  - split; [intros I; right; split; [exact I|intros [(z & E)|E]; discriminate]|intros [[E _]|[I _]]; [discriminate|exact I]].
Qed.
Lemma flow_incl code n x y : incl x y -> incl (flow n (code n) x) (flow n (code n) y).
Proof. intros S z. rewrite !in_flow. intros [|[I N]]; auto. Qed.

(** ** Paths *)
Lemma fresh_snoc code tr n x : fresh code (tr ++ [n]) x <-> (code n = IAlloca /\ x = VInst n) \/ (fresh code tr x /\ ~ sets code n x).
Proof.
  split.
  - intros (be & a & si & E & C & X & N). destruct si as [|k si _] using rev_ind.
    + apply app_inj_tail in E. destruct E as [-> ->]. auto.
    + rewrite app_comm_cons, app_assoc in E. apply app_inj_tail in E. destruct E as [-> ->]. right. split.
      * exists be, a, si. split; [reflexivity|]. split; [exact C|]. split; [exact X|]. intros m I. apply N, in_or_app. auto.
      * apply N, in_or_app. right. left. reflexivity.
  - intros [[C X]|[(be & a & si & -> & C & X & N) Ns]].
    + exists tr, n, []. split; [reflexivity|]. split; [exact C|]. split; [exact X|]. intros m [].
    + exists be, a, (si ++ [n]). split; [now rewrite <- app_assoc|]. split; [exact C|]. split; [exact X|].
      intros m I. apply in_app_or in I. destruct I as [I|[<-|[]]]; auto.
Qed.
Lemma fresh_nil code x : ~ fresh code [] x.
Proof. intros (be & a & si & E & _). destruct be; discriminate. Qed.
(** ** The solver *)
Section S.
  Context (c : IntraMonoModel.cfg nat unit) (code : nat -> instr) (starts : list nat).
  Notation P := (problem code starts).
  Notation gt n A := (IntraMonoModel.get P n A).
  Notation V := (IntraMonoSpec.inV c P).
  Notation tab := IntraMonoModel.tab.
  Notation worklist := IntraMonoModel.worklist.
  Notation succs := (IntraMonoModel.succs c).
  Notation preds := (IntraMonoModel.preds c).
  Notation outOf := (IntraMonoModel.outOf P).
  Notation outFor := (IntraMonoModel.outFor c P).
  Context (Gr : IntraMonoSpec.graph c P).

  Lemma covered : IntraMonoCover.bounded P (fun x y => incl y x).
  Proof.
    constructor.
    - intros x. apply incl_refl.
    - intros x y z A B. exact (incl_tran B A).
    - intros x y z I. apply in_merge in I. tauto.
    - intros x y z I. apply in_merge in I. tauto.
    - intros x y E z I. apply (proj1 (equal_to_ok x y) E), I.
  Qed.
  Lemma in_outFor A s d x : V s -> In d (succs s) -> (In x (outFor A s d) <-> forall p, In p (preds d) -> In x (outOf A p)).
  Proof.
    intros Hs Hd. pose proof (IntraMonoSpec.succ_pred _ _ Gr s d Hs Hd) as Hp. unfold IntraMonoModel.outFor.
    destruct (IntraMonoModel.isBranchTarget c s d) eqn:B.
    - assert (G : forall ps o, In x (fold_left (fun o p => if eqb p s then o else merge o (outOf A p)) ps o) <->
        In x o /\ forall p, In p ps -> p <> s -> In x (outOf A p)).
      { induction ps as [|p ps IH]; intros o; cbn [fold_left]; [split; [intros I; split; [exact I|intros ? []]|tauto]|].
        rewrite IH. destruct (eqb p s) eqn:E.
        - apply eqb_eq in E. split; intros [I J]; (split; [exact I|]); intros q; [intros [<-|Iq] N; [contradiction|auto]|intros Iq N; apply J; [right|]; auto].
        - assert (p <> s) by (intros ->; rewrite (eqb_refl s) in E; discriminate). rewrite in_merge. split.
          + intros [[I1 I2] J]. split; [exact I1|]. intros q [<-|Iq] N; auto.
          + intros [I J]. split; [split; [exact I|apply J; [left; reflexivity|assumption]]|]. intros q Iq N. apply J; [right|]; auto. }
      change (IntraMonoModel.merge P) with merge. rewrite G. split.
      + intros [I J] p Ip. destruct (eq_dec p s) as [->|N]; auto.
      + intros I. split; auto.
    - split.
      + intros I p Ip. now rewrite (IntraMonoSpec.single_pred _ _ Gr s d p Hs Hd B Ip).
      + auto.
  Qed.
  Lemma cases A s d wl : let st := IntraMonoModel.step c P A s d wl in
    ((forall x, In x (outFor A s d) <-> In x (gt d A)) /\ (forall n, gt n (tab st) = gt n A) /\ worklist st = wl) \/
    (~ (forall x, In x (outFor A s d) <-> In x (gt d A)) /\ gt d (tab st) = outFor A s d /\ (forall n, n <> d -> gt n (tab st) = gt n A) /\
     worklist st = wl ++ map (pair d) (succs d)).
  Proof.
    cbn zeta. unfold IntraMonoModel.step. rewrite IntraMonoProofs.get_touched. change (IntraMonoModel.equal_to P) with equal_to.
    destruct (equal_to (outFor A s d) (gt d A)) eqn:E; cbn [IntraMonoModel.tab IntraMonoModel.worklist].
    - left. split; [now apply equal_to_ok|]. split; [|reflexivity]. intros n. apply IntraMonoProofs.get_touched.
    - right. split; [intros C; apply equal_to_ok in C; congruence|]. split; [|split; [|reflexivity]].
      + rewrite IntraMonoProofs.get_aset. destruct (eq_dec d d); congruence.
      + intros n N. rewrite IntraMonoProofs.get_aset. destruct (eq_dec n d); [contradiction|]. apply IntraMonoProofs.get_touched.
  Qed.
  Definition edgesIn (wl : list (nat * nat)) : Prop := forall s d, In (s, d) wl -> V s /\ In d (succs s).
  Lemma edgesIn_step A s d wl : edgesIn ((s, d) :: wl) -> edgesIn (worklist (IntraMonoModel.step c P A s d wl)).
  Proof.
    intros E. destruct (E s d (or_introl eq_refl)) as [Hs Hd].
    assert (W : edgesIn wl) by (intros a b I; apply E; right; exact I).
    destruct (cases A s d wl) as [(_ & _ & ->)|(_ & _ & _ & ->)]; [exact W|].
    intros a b I. apply in_app_or in I. destruct I as [I|I]; [auto|]. apply in_map_iff in I. destruct I as (m & [= <- <-] & I).
    split; [exact (IntraMonoSpec.succs_closed _ _ Gr s d Hs Hd)|exact I].
  Qed.
  Lemma loop_inv (I : IntraMonoModel.analysis -> Prop) :
    (forall A s d wl, V s -> In d (succs s) -> I A -> I (tab (IntraMonoModel.step c P A s d wl))) ->
    forall fuel st A, edgesIn (worklist st) -> I (tab st) -> IntraMonoModel.loop c P fuel st = Some A -> I A.
  Proof.
    intros H. induction fuel as [|fuel IH]; intros [A wl] A' E Hi; cbn [IntraMonoModel.loop IntraMonoModel.tab IntraMonoModel.worklist] in *;
      (destruct wl as [|[s d] wl]; [intros [= <-]; exact Hi|]); [discriminate|].
    destruct (E s d (or_introl eq_refl)) as [Hs Hd]. apply IH; [apply edgesIn_step, E|auto].
  Qed.

  (** what is known only grows *)
  Definition ascending (A : IntraMonoModel.analysis) : Prop :=
    forall d, V d -> preds d <> [] -> forall x, In x (gt d A) -> forall p, In p (preds d) -> In x (outOf A p).
  Lemma grows A s d wl n : V s -> In d (succs s) -> ascending A -> incl (gt n A) (gt n (tab (IntraMonoModel.step c P A s d wl))).
  Proof.
    intros Hs Hd As. destruct (cases A s d wl) as [(_ & E & _)|(_ & E1 & E2 & _)]; [rewrite E; apply incl_refl|].
    destruct (eq_dec n d) as [->|N]; [|rewrite E2 by exact N; apply incl_refl]. rewrite E1. intros x I.
    apply in_outFor; auto. intros p. apply As; [exact (IntraMonoSpec.succs_closed _ _ Gr s d Hs Hd)| |exact I].
    pose proof (IntraMonoSpec.succ_pred _ _ Gr s d Hs Hd) as Hp. intros C. rewrite C in Hp. destruct Hp.
  Qed.
  Lemma ascending_step A s d wl : V s -> In d (succs s) -> ascending A -> ascending (tab (IntraMonoModel.step c P A s d wl)).
  Proof.
    intros Hs Hd As e Ve Pe x I p Ip. assert (G : forall n, incl (gt n A) (gt n (tab (IntraMonoModel.step c P A s d wl)))) by (intros n; now apply grows).
    apply (flow_incl code p (gt p A)); [apply G|].
    destruct (cases A s d wl) as [(_ & E & _)|(_ & E1 & E2 & _)]; [rewrite E in I; exact (As e Ve Pe x I p Ip)|].
    destruct (eq_dec e d) as [->|N]; [|rewrite E2 in I by exact N; exact (As e Ve Pe x I p Ip)].
    rewrite E1 in I. exact (proj1 (in_outFor A s d x Hs Hd) I p Ip).
  Qed.
  Lemma start_empty n : IntraMonoSpec.entrySeeds c P -> V n -> gt n (tab (IntraMonoModel.initialize c P)) = [].
  Proof.
    intros [Ns _] Vn. destruct (IntraMonoProofs.init_get c P Gr n Ns Vn) as [(f & I & E)|(_ & _ & E)]; rewrite E; [|reflexivity].
    cbn in I. apply in_map_iff in I. destruct I as (m & [= _ <-] & _). reflexivity.
  Qed.
  Lemma init_edgesIn : edgesIn (worklist (IntraMonoModel.initialize c P)).
  Proof. intros s d I. exact (proj1 (IntraMonoProofs.init_edges c P (s, d)) I). Qed.
  Lemma init_ascending : IntraMonoSpec.entrySeeds c P -> ascending (tab (IntraMonoModel.initialize c P)).
  Proof. intros Es d Vd _ x I. rewrite start_empty in I by auto. destruct I. Qed.

  (** *** The end *)
  Lemma final fuel A : IntraMonoSpec.entrySeeds c P -> IntraMonoModel.loop c P fuel (IntraMonoModel.initialize c P) = Some A ->
    (forall n, V n -> preds n = [] -> gt n A = []) /\
    (forall n m, V n -> In m (succs n) -> incl (gt m A) (outOf A n)) /\
    (forall n, V n -> IntraMonoModel.getResultsAt P n (map (fun e => (fst e, flow (fst e) (code (fst e)) (snd e))) A) = flow n (code n) (gt n A)).
  Proof.
    intros Es L. destruct (IntraMonoCover.inv_loop c P _ covered Gr fuel _ A (IntraMonoCover.inv_init c P _ Gr Es) L) as (_ & C & St & Pr).
    split; [|split].
    - intros n Vn N. destruct (St n Vn N) as [(f & I & ->)|(_ & _ & ->)]; [|reflexivity].
      cbn in I. apply in_map_iff in I. destruct I as (m & [= _ <-] & _). reflexivity.
    - intros n m Vn I. destruct (C n m Vn I) as [[]|X]. exact X.
    - intros n Vn. exact (IntraMonoProofs.results_get P A n (Pr n Vn)).
  Qed.
  Lemma path_V tr n : path c V tr n -> V n.
  Proof. induction 1 as [n Vn _|tr n m _ IH I]; [exact Vn|]. exact (IntraMonoSpec.succs_closed _ _ Gr n m IH I). Qed.
  Lemma path_sound A : (forall n, V n -> preds n = [] -> gt n A = []) -> (forall n m, V n -> In m (succs n) -> incl (gt m A) (outOf A n)) ->
    forall tr n, path c V tr n -> forall x, In x (gt n A) -> fresh code tr x.
  Proof.
    intros S E tr n Pa. induction Pa as [n Vn Pn|tr n m Pa IH I]; intros x J; [rewrite S in J by auto; destruct J|].
    apply (E n m (path_V tr n Pa) I) in J. apply in_flow in J. apply fresh_snoc. destruct J as [J|[J N]]; auto.
  Qed.

  (** *** Without loops *)
  (** at the end, what all predecessors give is there *)
  Definition closed (A : IntraMonoModel.analysis) (wl : list (nat * nat)) : Prop :=
    forall d, V d -> preds d <> [] -> (exists q, In (q, d) wl) \/ forall x, (forall p, In p (preds d) -> In x (outOf A p)) -> In x (gt d A).
  Lemma closed_loop fuel : IntraMonoSpec.predsExact c P -> forall st A, edgesIn (worklist st) -> closed (tab st) (worklist st) ->
    IntraMonoModel.loop c P fuel st = Some A -> closed A [].
  Proof.
    intros Pe. induction fuel as [|fuel IH]; intros [A wl] A' E Hi; cbn [IntraMonoModel.loop IntraMonoModel.tab IntraMonoModel.worklist] in *;
      (destruct wl as [|[s d] wl]; [intros [= <-]; exact Hi|]); [discriminate|].
    destruct (E s d (or_introl eq_refl)) as [Hs Hd]. apply IH; [apply edgesIn_step, E|].
    intros e Ve Ne. destruct (cases A s d wl) as [(Q & G & ->)|(Q & E1 & E2 & ->)].
    - destruct (Nat.eq_dec e d) as [->|Nd].
      + right. intros x H. rewrite G. apply Q, in_outFor; auto. intros p Ip. specialize (H p Ip). unfold IntraMonoModel.outOf in *. rewrite G in H. exact H.
      + destruct (Hi e Ve Ne) as [(q & [[= _ X]|I])|H]; [congruence|eauto|]. right. intros x K. rewrite G. apply H. intros p Ip.
        specialize (K p Ip). unfold IntraMonoModel.outOf in *. rewrite G in K. exact K.
    - destruct (in_dec Nat.eq_dec d (preds e)) as [Id|Nd].
      + left. exists d. apply in_or_app. right. apply in_map. apply Pe; auto.
      + assert (O : forall p, In p (preds e) -> outOf (tab (IntraMonoModel.step c P A s d wl)) p = outOf A p).
        { intros p Ip. unfold IntraMonoModel.outOf. rewrite E2; [reflexivity|]. intros ->. contradiction. }
        destruct (Nat.eq_dec e d) as [->|Ned].
        * right. intros x H. rewrite E1. apply in_outFor; auto. intros p Ip. rewrite <- (O p Ip). auto.
        * destruct (Hi e Ve Ne) as [(q & [[= _ X]|I])|H]; [congruence|left; exists q; apply in_or_app; auto|].
          right. intros x K. rewrite E2 by exact Ned. apply H. intros p Ip. rewrite <- (O p Ip). auto.
  Qed.
  Lemma closed_init : IntraMonoSpec.predsExact c P -> closed (tab (IntraMonoModel.initialize c P)) (worklist (IntraMonoModel.initialize c P)).
  Proof.
    intros Pe d Vd Nd. left. destruct (preds d) as [|p ps] eqn:E; [contradiction|]. exists p.
    assert (Ip : In p (preds d)) by (rewrite E; left; reflexivity).
    apply (IntraMonoProofs.init_edges c P (p, d)). split; [exact (IntraMonoSpec.preds_closed _ _ Gr d p Vd Ip)|]. apply Pe; auto.
  Qed.
  Section Acyclic.
    Context (rank : nat -> nat) (Ac : forall n m, V n -> In m (succs n) -> rank n < rank m) (Pe : IntraMonoSpec.predsExact c P).
    Lemma reached : forall k n, rank n = k -> V n -> exists tr, path c V tr n.
    Proof.
      induction k as [k IH] using lt_wf_ind. intros n Rn Vn. destruct (preds n) as [|p ps] eqn:E.
      - exists []. now constructor.
      - assert (Ip : In p (preds n)) by (rewrite E; left; reflexivity). pose proof (IntraMonoSpec.preds_closed _ _ Gr n p Vn Ip) as Vp.
        pose proof (Pe p n Vn Ip) as Is. pose proof (Ac p n Vp Is) as L. rewrite Rn in L. destruct (IH (rank p) L p eq_refl Vp) as (tr & H).
        exists (tr ++ [p]). now constructor.
    Qed.
    Lemma not_known A x : closed A [] -> forall k n, rank n = k -> V n -> ~ In x (gt n A) -> exists tr, path c V tr n /\ ~ fresh code tr x.
    Proof.
      intros Cl. induction k as [k IH] using lt_wf_ind. intros n Rn Vn N. destruct (preds n) as [|p0 ps] eqn:E.
      { exists []. split; [now constructor|apply fresh_nil]. }
      destruct (Cl n Vn) as [(q & [])|H]; [rewrite E; discriminate|].
      assert (X : exists p, In p (preds n) /\ ~ In x (outOf A p)).
      { destruct (Forall_Exists_dec (fun p => In x (outOf A p)) (fun p => in_dec eq_dec x (outOf A p)) (preds n)) as [F|F].
        - exfalso. apply N, H. now apply Forall_forall.
        - apply Exists_exists in F. exact F. }
      destruct X as (p & Ip & Np). pose proof (IntraMonoSpec.preds_closed _ _ Gr n p Vn Ip) as Vp.
      pose proof (Pe p n Vn Ip) as Is. pose proof (Ac p n Vp Is) as L. rewrite Rn in L. unfold IntraMonoModel.outOf in Np. cbn in Np. rewrite in_flow in Np.
      destruct (in_dec eq_dec x (gt p A)) as [I|I].
      - destruct (reached (rank p) p eq_refl Vp) as (tr & H'). exists (tr ++ [p]). split; [now constructor|]. rewrite fresh_snoc.
        destruct (sets_dec code p x); tauto.
      - destruct (IH (rank p) L p eq_refl Vp I) as (tr & H' & F). exists (tr ++ [p]). split; [now constructor|]. rewrite fresh_snoc. tauto.
    Qed.
  End Acyclic.

  (** *** Loops *)
  Lemma forgets (S : nat -> Prop) x : IntraMonoSpec.entrySeeds c P ->
    (forall n, S n -> V n /\ exists p, In p (preds n) /\ S p) -> (forall n, S n -> x <> VInst n) ->
    forall fuel A, IntraMonoModel.loop c P fuel (IntraMonoModel.initialize c P) = Some A -> forall n, S n -> ~ In x (gt n A).
  Proof.
    intros Es HS Hx fuel A L. refine (loop_inv (fun A => forall n, S n -> ~ In x (gt n A)) _ fuel _ A init_edgesIn _ L).
    - intros B s d wl Hs Hd I n Sn. destruct (cases B s d wl) as [(_ & E & _)|(_ & E1 & E2 & _)]; [rewrite E; auto|].
      destruct (eq_dec n d) as [->|N]; [|rewrite E2; auto]. rewrite E1, in_outFor by auto. intros H.
      destruct (HS d Sn) as (_ & p & Ip & Sp). specialize (H p Ip). apply in_flow in H.
      destruct H as [[_ E]|[J _]]; [exact (Hx p Sp E)|exact (I p Sp J)].
    - intros n Sn. destruct (HS n Sn) as [Vn _]. rewrite start_empty; auto.
  Qed.

  (** *** Termination *)
  Definition vs : list nat := nodup Nat.eq_dec (IntraMonoModel.nodes c tt).
  Lemma vs_V n : In n vs <-> V n.
  Proof.
    unfold vs, IntraMonoSpec.inV. rewrite nodup_In. split; [intros I; exists tt; split; [left; reflexivity|exact I]|].
    intros ([] & _ & I). exact I.
  Qed.
  Definition size (m : cont) : nat := length (nodup eq_dec m).
  Definition okTab (A : IntraMonoModel.analysis) : Prop := forall n, V n -> incl (gt n A) (map VInst vs).
  Definition slack (A : IntraMonoModel.analysis) : nat := list_sum (map (fun n => length vs - size (gt n A)) vs).
  Lemma size_le m : incl m (map VInst vs) -> size m <= length vs.
  Proof.
    intros I. unfold size. rewrite <- (map_length VInst vs). apply NoDup_incl_length; [apply NoDup_nodup|].
    intros x J. apply nodup_In in J. auto.
  Qed.
  Lemma size_lt l m : incl l m -> ~ (forall x, In x m <-> In x l) -> size l < size m.
  Proof.
    intros I N. unfold size. destruct (le_lt_dec (length (nodup eq_dec m)) (length (nodup eq_dec l))) as [H|H]; [|exact H].
    exfalso. apply N. intros x. split; [|apply I]. intros J.
    assert (K : incl (nodup eq_dec m) (nodup eq_dec l)).
    { apply NoDup_length_incl; [apply NoDup_nodup|exact H|]. intros y Y. apply nodup_In. apply nodup_In in Y. auto. }
    apply (nodup_In eq_dec), K, nodup_In, J.
  Qed.
  Lemma terminates : forall m k st, slack (tab st) = m -> length (worklist st) = k ->
    edgesIn (worklist st) -> ascending (tab st) -> okTab (tab st) ->
    exists fuel A, forall j, fuel <= j -> IntraMonoModel.loop c P j st = Some A.
  Proof.
    induction m as [m IHm] using lt_wf_ind. induction k as [k IHk] using lt_wf_ind. intros [A wl] Hm Hk He Ha Ho.
    cbn [IntraMonoModel.tab IntraMonoModel.worklist] in *. destruct wl as [|[s d] wl].
    { exists 0, A. intros [|j] _; reflexivity. }
    destruct (He s d (or_introl eq_refl)) as [Hs Hd]. pose proof (IntraMonoSpec.succs_closed _ _ Gr s d Hs Hd) as Vd.
    set (st' := IntraMonoModel.step c P A s d wl).
    pose proof (ascending_step A s d wl Hs Hd Ha) as Ha'. pose proof (grows A s d wl d Hs Hd Ha) as Hg.
    pose proof (edgesIn_step A s d wl He) as He'. fold st' in Ha', Hg, He'.
    assert (Hok : incl (outFor A s d) (map VInst vs)).
    { intros x I. pose proof (proj1 (in_outFor A s d x Hs Hd) I s (IntraMonoSpec.succ_pred _ _ Gr s d Hs Hd)) as J. apply in_flow in J.
      destruct J as [[_ ->]|[J _]]; [apply in_map, vs_V, Hs|exact (Ho s Hs x J)]. }
    assert (Hstep : exists fuel A', forall j, fuel <= j -> IntraMonoModel.loop c P j st' = Some A').
    { pose proof (cases A s d wl) as Cs. cbv zeta in Cs. fold st' in Cs. destruct Cs as [(_ & E & W)|(N & E1 & E2 & _)].
      - apply (IHk (length wl)); auto.
        + subst k. cbn. lia.
        + rewrite <- Hm. unfold slack. f_equal. apply map_ext. intros n. now rewrite E.
        + now rewrite W.
        + intros n Vn. rewrite E. auto.
      - apply (IHm (slack (tab st'))) with (k := length (worklist st')); auto.
        + rewrite E1 in Hg. pose proof (size_lt _ _ Hg N) as Lt. pose proof (size_le _ Hok) as Le.
          subst m. unfold slack. apply IntraMonoProofs.sum_lt with (d := d).
          * intros n _. destruct (eq_dec n d) as [->|Nd]; [rewrite E1; lia|rewrite E2; auto].
          * now apply vs_V.
          * rewrite E1. lia.
        + intros n Vn. destruct (eq_dec n d) as [->|Nd]; [now rewrite E1|rewrite E2; auto]. }
    destruct Hstep as (fuel & A' & Hf). exists (S fuel), A'. intros [|j] Hj; [lia|].
    cbn [IntraMonoModel.loop IntraMonoModel.worklist IntraMonoModel.tab]. apply Hf. lia.
  Qed.
  Lemma solver_ends : IntraMonoSpec.entrySeeds c P -> exists fuel A, forall j, fuel <= j -> IntraMonoModel.loop c P j (IntraMonoModel.initialize c P) = Some A.
  Proof.
    intros Es. eapply terminates; try reflexivity; [apply init_edgesIn|now apply init_ascending|].
    intros n Vn x I. rewrite start_empty in I by auto. destruct I.
  Qed.
End S.

(** ** Executions *)
Section E.
  Context (code : nat -> instr) (args : nat -> rv) (Si : simple code).
  Definition good (tr : list nat) (s : state) : Prop :=
    (forall n a, code n = IAlloca -> env s n = Some (RPtr a) -> a < next s) /\
    (forall n m a, code n = IAlloca -> code m = IAlloca -> env s n = Some (RPtr a) -> env s m = Some (RPtr a) -> n = m) /\
    forall x, fresh code tr x -> uninitialised code s x.
  Lemma good_step tr n s s' : good tr s -> step code args n s s' -> good (tr ++ [n]) s'.
  Proof.
    intros (B & J & F) St. destruct St as [C|v int p a x C Ep Ev|x init' C|x C].
    - split; [|split]; cbn [env init next].
      + intros k a Ck. unfold upd. destruct (Nat.eqb_spec k n); [intros [= <-]; lia|]. intros E. specialize (B k a Ck E). lia.
      + intros k m a Ck Cm. unfold upd. destruct (Nat.eqb_spec k n), (Nat.eqb_spec m n); try congruence.
        * intros [= <-] E. specialize (B m _ Cm E). lia.
        * intros E [= <-]. specialize (B k _ Ck E). lia.
        * intros E1 E2. exact (J k m a Ck Cm E1 E2).
      + intros x Fx. apply fresh_snoc in Fx.
        assert (New : uninitialised code (mkS (upd (env s) n (Some (RPtr (next s)))) (upd (init s) (next s) false) (S (next s))) (VInst n)).
        { exists n, (next s). split; [reflexivity|]. split; [exact C|]. cbn [env init]. unfold upd. rewrite !Nat.eqb_refl. auto. }
        destruct Fx as [[_ ->]|[Fx _]]; [exact New|]. destruct (F x Fx) as (k & a & -> & Ck & E & I0).
        destruct (Nat.eq_dec k n) as [->|N]; [exact New|]. exists k, a. split; [reflexivity|]. split; [exact Ck|]. cbn [env init]. unfold upd.
        destruct (Nat.eqb_spec k n); [contradiction|]. split; [exact E|]. specialize (B k a Ck E). destruct (Nat.eqb_spec a (next s)); [lia|exact I0].
    - split; [exact B|]. split; [exact J|]. intros y Fy. apply fresh_snoc in Fy. destruct Fy as [[C' _]|[Fy Ns]]; [congruence|].
      destruct (F y Fy) as (k & a' & -> & Ck & E & I0). exists k, a'. split; [reflexivity|]. split; [exact Ck|]. cbn [env init]. split; [exact E|].
      unfold upd. destruct (Nat.eqb_spec a' a) as [->|]; [|exact I0]. exfalso.
      destruct (Si n) as [_ Sn]. destruct (Sn v int p C) as (-> & Hv & b & -> & Cb). cbn in Ep. rewrite (J k b a Ck Cb E Ep) in Ns.
      apply Ns. destruct Hv as [(z & ->)| ->]; [left; eauto|right; exact C].
    - destruct (Si n) as [N _]. contradiction.
    - assert (K : forall k, code k = IAlloca -> upd (env s) n x k = env s k).
      { intros k Ck. unfold upd. destruct (Nat.eqb_spec k n); [congruence|reflexivity]. }
      split; [|split]; cbn [env init next].
      + intros k a Ck. rewrite K by exact Ck. apply B, Ck.
      + intros k m a Ck Cm. rewrite !K by assumption. apply J; assumption.
      + intros y Fy. apply fresh_snoc in Fy. destruct Fy as [[C' _]|[Fy _]]; [congruence|].
        destruct (F y Fy) as (k & a & -> & Ck & E & I0). exists k, a. split; [reflexivity|]. split; [exact Ck|]. cbn [env init]. rewrite K by exact Ck. auto.
  Qed.
  Lemma good_run succs starts tr n s : run code args succs starts tr n s -> good tr s.
  Proof.
    induction 1 as [n I|tr n s m s' R IH St I]; [|exact (good_step tr n s s' IH St)].
    split; [discriminate|]. split; [discriminate|]. intros x F. destruct (fresh_nil code x F).
  Qed.
End E.
