(** C25 without monotonicity: where the intra-procedural monotone solver ends, the
    edges are respected. *)
From Coq Require Import List Bool Arith Lia.
From Verif Require Import Assoc IntraMonoModel IntraMonoSpec IntraMonoProofs.
Import ListNotations.

(** all that is needed: merge is above both sides *)
Record bounded {Nd M F} (P : problem Nd M F) (le : M -> M -> Prop) : Prop := {
  b_refl : forall x, le x x;
  b_trans : forall x y z, le x y -> le y z -> le x z;
  b_merge_l : forall x y, le x (merge P x y);
  b_merge_r : forall x y, le y (merge P x y);
  b_equal : forall x y, equal_to P x y = true -> le x y }.

Section C.
  Context {Nd M F : Type} `{EqDec Nd} (c : cfg Nd F) (P : problem Nd M F) (le : M -> M -> Prop).
  Context (B : bounded P le) (Gr : graph c P).
  Notation gt n A := (get P n A).
  Notation V := (inV c P).

  Lemma outFor_above A s d : V s -> In d (succs c s) -> forall p, In p (preds c d) -> le (outOf P A p) (outFor c P A s d).
  Proof.
    intros Hs Hd p Hp. unfold outFor. destruct (isBranchTarget c s d) eqn:E.
    - assert (G : forall ps o,
        le o (fold_left (fun o p => if eqb p s then o else merge P o (outOf P A p)) ps o) /\
        (forall p, In p ps -> p <> s -> le (outOf P A p) (fold_left (fun o p => if eqb p s then o else merge P o (outOf P A p)) ps o))).
      { induction ps as [|q ps IH]; intros o; cbn [fold_left]; [split; [apply (b_refl _ _ B)|intros ? []]|].
        destruct (IH (if eqb q s then o else merge P o (outOf P A q))) as [I1 I2]. split.
        - eapply (b_trans _ _ B); [|exact I1]. destruct (eqb q s); [apply (b_refl _ _ B)|apply (b_merge_l _ _ B)].
        - intros r [<-|Hr] N; [|auto]. eapply (b_trans _ _ B); [|exact I1].
          destruct (eqb q s) eqn:Eq; [apply eqb_eq in Eq; contradiction|apply (b_merge_r _ _ B)]. }
      destruct (G (preds c d) (outOf P A s)) as [G1 G2]. destruct (eq_dec p s) as [->|N]; auto.
    - rewrite (single_pred _ _ Gr s d p Hs Hd E Hp). apply (b_refl _ _ B).
  Qed.
  Definition inv (A : analysis (Nd := Nd) (M := M)) (wl : list (Nd * Nd)) : Prop :=
    (forall s d, In (s, d) wl -> V s /\ In d (succs c s)) /\
    (forall s d, V s -> In d (succs c s) -> In (s, d) wl \/ le (outOf P A s) (gt d A)) /\
    (forall n, V n -> preds c n = [] -> starts c P n (gt n A)) /\
    (forall n, V n -> afind n A <> None).
  Lemma inv_step A s d wl : inv A ((s, d) :: wl) -> inv (tab (step c P A s d wl)) (worklist (step c P A s d wl)).
  Proof.
    intros (E & C & St & Pr). destruct (E s d (or_introl eq_refl)) as [Hs Hd].
    assert (T : forall n, V n -> afind n (touched c P A s d) <> None) by exact (present_touched c P A s d Pr).
    unfold step. rewrite get_touched. destruct (equal_to P (outFor c P A s d) (gt d A)) eqn:Q; cbn [tab worklist].
    - split; [intros a b I; apply E; right; exact I|]. split; [|split; [|exact T]].
      + intros a b Va Ib. unfold outOf. rewrite !get_touched. destruct (C a b Va Ib) as [[X|X]|X]; [|auto|auto].
        injection X as <- <-. right. apply (b_equal _ _ B) in Q. eapply (b_trans _ _ B); [|exact Q].
        apply outFor_above; auto. apply (succ_pred _ _ Gr); auto.
      + intros n Vn N. rewrite get_touched. auto.
    - split.
      { intros a b I. apply in_app_iff in I. destruct I as [I|I]; [apply E; right; exact I|].
        apply in_map_iff in I. destruct I as (m & X & I). injection X as <- <-. split; [exact (succs_closed _ _ Gr s d Hs Hd)|exact I]. }
      split; [|split].
      + intros a b Va Ib. pose proof (succ_pred _ _ Gr a b Va Ib) as Pb. unfold outOf. rewrite !get_aset, !get_touched.
        destruct (eq_dec a d) as [->|Na]; [left; apply in_or_app; right; apply in_map, Ib|].
        destruct (eq_dec b d) as [->|Nb]; [right; apply (outFor_above A s d Hs Hd a Pb)|].
        destruct (C a b Va Ib) as [[X|X]|X]; [injection X as <- <-; contradiction|left; apply in_or_app; auto|auto].
      + intros n Vn N. rewrite get_aset, get_touched. destruct (eq_dec n d) as [->|]; [|auto].
        pose proof (succ_pred _ _ Gr s d Hs Hd) as X. rewrite N in X. destruct X.
      + intros n Vn. rewrite afind_aset. destruct (eq_dec n d); [discriminate|]. apply T, Vn.
  Qed.
  Lemma inv_loop fuel : forall st A, inv (tab st) (worklist st) -> loop c P fuel st = Some A -> inv A [].
  Proof.
    induction fuel as [|fuel IH]; intros [A wl] A' I; cbn [loop tab worklist] in *;
      (destruct wl as [|[s d] wl]; [intros [= <-]; exact I|]); [discriminate|].
    apply IH. apply inv_step, I.
  Qed.
  Lemma inv_init : entrySeeds c P -> inv (tab (initialize c P)) (worklist (initialize c P)).
  Proof.
    intros [Ns Es]. split; [|split; [|split]].
    - intros s d I. exact (proj1 (init_edges c P (s, d)) I).
    - intros s d Hs Hd. left. exact (proj2 (init_edges c P (s, d)) (conj Hs Hd)).
    - intros n Vn _. apply init_get; assumption.
    - exact (present_init c P Gr).
  Qed.
End C.

(** Whatever the flow functions are: if the solver ends, then what holds after a
    node is within what holds before each of its successors. *)
Theorem C25_end_respects_edges : forall {Nd M F} `{EqDec Nd} (c : cfg Nd F) (P : problem Nd M F) le fuel R,
  bounded P le -> graph c P -> entrySeeds c P -> solve c P fuel = Some R ->
  exists before : Nd -> M, forall n, inV c P n ->
    getResultsAt P n R = normalFlow P n (before n) /\
    (preds c n = [] -> starts c P n (before n)) /\
    (forall m, In m (succs c n) -> le (getResultsAt P n R) (before m)).
Proof.
  intros Nd M F E c P le fuel R B Gr Es Hs. unfold solve in Hs. destruct (loop c P fuel (initialize c P)) as [A|] eqn:L; [|discriminate].
  injection Hs as <-. destruct (inv_loop c P le B Gr fuel _ A (inv_init c P le Gr Es) L) as (_ & C & St & Pr).
  exists (fun n => get P n A). intros n Vn. unfold getResultsAt. rewrite (results_get P A n (Pr n Vn)).
  split; [reflexivity|]. split; [apply St, Vn|]. intros m I. destruct (C n m Vn I) as [[]|X]. exact X.
Qed.
Print Assumptions C25_end_respects_edges.
