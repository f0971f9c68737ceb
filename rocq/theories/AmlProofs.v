(** Proofs for C56. *)
From Coq Require Import List Bool Arith ZArith Lia.
From Verif Require Import Assoc AmlModel AmlSpec.
Import ListNotations.
Local Open Scope Z_scope.

(** ** Lists *)
Lemma addBack_app os o d : addBack (os ++ [o]) d = os ++ [o + d].
Proof. unfold addBack. rewrite removelast_last, last_last. reflexivity. Qed.

Lemma length_addBack os d : os <> [] -> length (addBack os d) = length os.
Proof.
  intro H. destruct (exists_last H) as (l & x & ->). rewrite addBack_app, !app_length. reflexivity.
Qed.

Lemma shifted_addBack os d : os <> [] -> shifted d os (addBack os d).
Proof. intro H. destruct (exists_last H) as (l & x & ->). rewrite addBack_app. constructor. Qed.

Lemma shifted_inv d os os' : shifted d os os' -> os <> [] /\ os' = addBack os d.
Proof. destruct 1. split; [destruct os; discriminate|]. now rewrite addBack_app. Qed.

Lemma addBack_nonempty os d : addBack os d <> [].
Proof. unfold addBack. destruct (removelast os); discriminate. Qed.

Lemma addBack_0 os : os <> [] -> addBack os 0 = os.
Proof.
  intro H. destruct (exists_last H) as (l & x & ->). rewrite addBack_app.
  now rewrite Z.add_0_r.
Qed.

Lemma addBack_addBack os c d : addBack (addBack os c) d = addBack os (c + d).
Proof. unfold addBack. rewrite removelast_last, last_last. now rewrite Z.add_assoc. Qed.

Lemma isPrefix_refl os : isPrefix os os.
Proof. exists []. now rewrite app_nil_r. Qed.
Lemma isPrefix_trans os ps qs : isPrefix os ps -> isPrefix ps qs -> isPrefix os qs.
Proof. intros [r ->] [s ->]. exists (r ++ s). now rewrite app_assoc. Qed.
Lemma isPrefix_firstn n os : isPrefix (firstn n os) os.
Proof. exists (skipn n os). now rewrite firstn_skipn. Qed.
Lemma isPrefix_removelast os : isPrefix (removelast os) os.
Proof.
  destruct os as [|o os]; [exists []; reflexivity|].
  destruct (exists_last (l := o :: os) ltac:(discriminate)) as (l & x & ->).
  rewrite removelast_last. now exists [x].
Qed.
Lemma isPrefix_length os ps : isPrefix os ps -> (length os <= length ps)%nat.
Proof. intros [r ->]. rewrite app_length. lia. Qed.
Lemma isPrefix_iff os ps : isPrefix os ps <-> os = firstn (length os) ps.
Proof.
  split.
  - intros [r ->]. rewrite firstn_app, firstn_all, Nat.sub_diag. cbn. now rewrite app_nil_r.
  - intro H. rewrite H. apply isPrefix_firstn.
Qed.
Lemma isPrefix_removelast_addBack os d : isPrefix (removelast os) (addBack os d).
Proof. now exists [last os 0 + d]. Qed.
Lemma isPrefix_app os ps qs : isPrefix os ps -> isPrefix os (ps ++ qs).
Proof. intros [r ->]. exists (r ++ qs). now rewrite app_assoc. Qed.
Lemma isPrefix_removelast_mono os ps : isPrefix os ps -> isPrefix (removelast os) (removelast ps).
Proof.
  intros [r ->]. destruct r as [|x r]; [rewrite app_nil_r; apply isPrefix_refl|].
  rewrite removelast_app by discriminate.
  apply isPrefix_app, isPrefix_removelast.
Qed.

Lemma firstn_0_length {A} n (l : list A) : (length (firstn n l) <= n)%nat.
Proof. apply firstn_le_length. Qed.

(** ** Following offsets *)
Fixpoint follow (m : memory) (a : Z) (os : list Z) : Z :=
  match os with
  | [] => a
  | [o] => a + o
  | o :: rest => follow m (m (a + o)) rest
  end.

Lemma follows_follow m a os p : follows m a os p <-> p = follow m a os.
Proof.
  split.
  - induction 1; [reflexivity..|]. rewrite IHfollows. reflexivity.
  - intros ->. revert a. induction os as [|o os IH]; intro a; [constructor|].
    destruct os as [|o' os]; [constructor|]. constructor. apply IH.
Qed.

Lemma follow_cons m a o p os : follow m a (o :: p :: os) = follow m (m (a + o)) (p :: os).
Proof. reflexivity. Qed.

Lemma follow_app m a os o : os <> [] -> follow m a (os ++ [o]) = m (follow m a os) + o.
Proof.
  revert a. induction os as [|x os IH]; [congruence|]. intros a _.
  destruct os as [|y os]; [reflexivity|].
  change ((x :: y :: os) ++ [o]) with (x :: y :: (os ++ [o])).
  rewrite follow_cons. change (y :: os ++ [o]) with ((y :: os) ++ [o]).
  rewrite IH by discriminate. reflexivity.
Qed.

Lemma follow_append m a os o ps : os <> [] -> follow m a (os ++ o :: ps) = follow m (m (follow m a os)) (o :: ps).
Proof.
  revert a. induction os as [|x os IH]; [congruence|]. intros a _.
  destruct os as [|y os]; [reflexivity|].
  change ((x :: y :: os) ++ o :: ps) with (x :: (y :: (os ++ o :: ps))).
  rewrite follow_cons. change (y :: os ++ o :: ps) with ((y :: os) ++ o :: ps).
  rewrite IH by discriminate. reflexivity.
Qed.

Lemma follow_addBack m a os d : os <> [] -> follow m a (addBack os d) = follow m a os + d.
Proof.
  intro H. destruct (exists_last H) as (l & x & ->). rewrite addBack_app.
  destruct l as [|y l]; [cbn; lia|]. rewrite !follow_app by discriminate. lia.
Qed.

(** the continuation of a path at its last offset *)
Lemma follow_addBack_app m a os o ps : os <> [] ->
  follow m a (addBack os o ++ ps) = follow m (follow m a os) (o :: ps).
Proof.
  intro H. destruct ps as [|p ps].
  - rewrite app_nil_r, follow_addBack by assumption. reflexivity.
  - rewrite follow_append by apply addBack_nonempty.
    rewrite follow_addBack by assumption. reflexivity.
Qed.

(** ** Accesses *)
Fixpoint path (index : nat -> Z) (v : value) : list Z :=
  match v with
  | Zero | Base _ _ => [0]
  | Load _ p => path index p ++ [0]
  | Cast _ p => path index p
  | Gep _ p (Some d) => addBack (path index p) d
  | Gep n p None => addBack (path index p) (index n)
  end.

Lemma path_nonempty index v : path index v <> [].
Proof.
  induction v as [| | |n v IH|n v IH [d|]]; cbn [path]; try discriminate; auto;
    try apply addBack_nonempty.
  destruct (path index v); discriminate.
Qed.

Lemma accesses_path index v os : accesses index v os <-> os = path index v.
Proof.
  split.
  - induction 1; cbn [path]; subst; auto.
    + now apply shifted_inv in H0 as [_ ->].
    + now apply shifted_inv in H0 as [_ ->].
  - intros ->. induction v as [| | |n v IH|n v IH [d|]]; cbn [path]; try (constructor; auto; fail).
    + eapply AGep; [exact IH|]. apply shifted_addBack, path_nonempty.
    + eapply AGepVar; [exact IH|]. apply shifted_addBack, path_nonempty.
Qed.

(** the accesses of a pointer lead to it *)
Lemma follow_path m env index v :
  follow m (env (root v)) (path index v) = run m env index v.
Proof.
  induction v as [|n b|n v IH|n v IH|n v IH [d|]]; cbn [root path run].
  - cbn. lia.
  - cbn. lia.
  - rewrite follow_app by apply path_nonempty. rewrite IH. lia.
  - exact IH.
  - rewrite follow_addBack by apply path_nonempty. now rewrite IH.
  - rewrite follow_addBack by apply path_nonempty. now rewrite IH.
Qed.

Lemma constant_path index index' v : constant v -> path index v = path index' v.
Proof.
  induction v as [|n b|n v IH|n v IH|n v IH [d|]]; cbn; intro H; auto.
  - now rewrite IH.
  - destruct H. now rewrite IH.
  - destruct H; congruence.
Qed.

(** ** The pool *)
Lemma profileOf_inj a b : profileOf a = profileOf b ->
  base a = base b /\ offsets a = offsets b /\ ((lifetime a =? 0) = (lifetime b =? 0))%nat.
Proof.
  unfold profileOf. intro H. injection H as H1 H2 H3. repeat split; auto.
  now destruct (lifetime a =? 0)%nat, (lifetime b =? 0)%nat.
Qed.

(** whether a result is what has been asked for, except for its lifetime *)
Definition as_asked (v : value) (offs : list Z) (life : nat) (a : location) : Prop :=
  base a = v /\ offsets a = offs /\ (lifetime a = 0%nat <-> life = 0%nat).

Lemma zero_iff (a b : nat) : (a =? 0)%nat = (b =? 0)%nat <-> (a = 0%nat <-> b = 0%nat).
Proof.
  destruct (Nat.eqb_spec a 0), (Nat.eqb_spec b 0); split; intros; try tauto; try congruence; lia.
Qed.

Lemma getOrCreate_spec f v offs life f' a :
  getOrCreate f v offs life = Some (f', a) ->
  as_asked v offs life a /\ cache f' = cache f /\ In a (pool f') /\
  (life <> 0%nat -> offs <> []) /\
  ((f' = f /\ In a (pool f)) \/
   (pool f' = a :: pool f /\ a = mkLoc v offs life /\ forall b, In b (pool f) -> profileOf b <> profileOf a)).
Proof.
  unfold getOrCreate, makeProfile.
  destruct ((life =? 0)%nat || negb (eqb offs [])) eqn:E; [|discriminate].
  assert (Hne : life <> 0%nat -> offs <> []).
  { intros H ->. apply orb_true_iff in E as [E|E]; [apply Nat.eqb_eq in E; auto|].
    rewrite eqb_refl in E. discriminate. }
  destruct (find _ (pool f)) as [b|] eqn:F; intro H; injection H as <- <-.
  - apply find_some in F as [I F]. apply eqb_eq in F. unfold profileOf in F. injection F as F1 F2 F3.
    refine (conj _ (conj eq_refl (conj I (conj Hne _)))); [|left; auto].
    refine (conj F1 (conj F2 _)). apply zero_iff.
    now destruct (lifetime b =? 0)%nat, (life =? 0)%nat.
  - cbn. refine (conj _ (conj eq_refl (conj (or_introl eq_refl) (conj Hne _)))).
    + repeat split; auto.
    + right. refine (conj eq_refl (conj eq_refl _)). intros b I P.
      pose proof (find_none _ _ F _ I) as N. cbn in N. apply Assoc.eqb_false in N. apply N. exact P.
Qed.

Lemma getOrCreate_total f v offs life : (life <> 0%nat -> offs <> []) ->
  exists f' a, getOrCreate f v offs life = Some (f', a).
Proof.
  intro H. unfold getOrCreate, makeProfile.
  replace ((life =? 0)%nat || negb (eqb offs [])) with true.
  - destruct (find _ (pool f)); eauto.
  - symmetry. apply orb_true_iff. destruct (Nat.eqb_spec life 0); [auto|right].
    apply negb_true_iff, Assoc.eqb_false. auto.
Qed.

(** ** Creation *)
(** the pointer whose offset varies first, seen from the base *)
Fixpoint stem (v : value) : option value :=
  match v with
  | Zero | Base _ _ => None
  | Load _ p | Cast _ p | Gep _ p (Some _) => stem p
  | Gep _ p None => match stem p with Some q => Some q | None => Some p end
  end.

Lemma stem_constant v : constant v <-> stem v = None.
Proof.
  induction v as [|n b|n v IH|n v IH|n v IH [d|]]; cbn; try tauto.
  - rewrite IH. intuition congruence.
  - destruct (stem v); intuition congruence.
Qed.


Lemma stem_stem v q : stem v = Some q -> stem q = None.
Proof.
  induction v as [|n b|n v IH|n v IH|n v IH [d|]]; cbn; intro H; try discriminate; auto.
  destruct (stem v) as [r|] eqn:E; injection H as <-; auto.
Qed.

Lemma walk_stem bound v q os ver : stem v = Some q -> walk bound v os ver = walk bound q [0] bound.
Proof.
  revert os ver. induction v as [|n b|n v IH|n v IH|n v IH [d|]]; cbn; intros os ver H; try discriminate; auto.
  destruct (stem v) as [r|] eqn:E; injection H as <-; auto.
Qed.

Lemma stem_root v q : stem v = Some q -> root q = root v.
Proof.
  induction v as [|n b|n v IH|n v IH|n v IH [d|]]; cbn; intro H; try discriminate; auto.
  destruct (stem v) as [r|] eqn:E; injection H as <-; auto.
Qed.

(** whatever the variable offsets, the accesses start with those of the stem
    but the last *)
Lemma stem_path index v q : stem v = Some q ->
  isPrefix (removelast (path index q)) (removelast (path index v)).
Proof.
  induction v as [|n b|n v IH|n v IH|n v IH [d|]]; cbn [stem path]; intro H; try discriminate; auto.
  - rewrite removelast_last. eapply isPrefix_trans; [apply IH, H|]. apply isPrefix_removelast.
  - unfold addBack. rewrite removelast_last. auto.
  - unfold addBack. rewrite removelast_last.
    destruct (stem v) as [r|] eqn:E; injection H as <-; auto. apply isPrefix_refl.
Qed.

Definition glue (p r : list Z) : list Z := addBack p (hd 0 r) ++ tl r.

Lemma rev_addBack os d : os <> [] -> rev (addBack os d) = hd 0 (rev os) + d :: tl (rev os).
Proof.
  intro H. destruct (exists_last H) as (l & x & ->). rewrite addBack_app, !rev_app_distr. reflexivity.
Qed.

Lemma walk_constant bound v os ver index : constant v -> os <> [] ->
  exists os', walk bound v os ver = (root v, os', (ver + (length (path index v) - 1))%nat) /\
              rev os' = glue (path index v) (rev os).
Proof.
  revert os ver. induction v as [|n b|n v IH|n v IH|n v IH [d|]]; cbn [constant walk root path]; intros os ver C H.
  - exists os. rewrite Nat.add_0_r. split; auto.
    destruct (exists_last H) as (l & x & ->). rewrite rev_app_distr. reflexivity.
  - exists os. rewrite Nat.add_0_r. split; auto.
    destruct (exists_last H) as (l & x & ->). rewrite rev_app_distr. reflexivity.
  - destruct (IH (os ++ [0]) (S ver) C) as (os' & E & R); [destruct os; discriminate|].
    exists os'. rewrite E, app_length. cbn [length]. split.
    + f_equal. pose proof (path_nonempty index v). destruct (path index v); [congruence|]. cbn [length]. lia.
    + rewrite R, rev_app_distr. cbn [rev app]. unfold glue. cbn [hd tl].
      rewrite addBack_0 by apply path_nonempty. rewrite addBack_app.
      destruct (exists_last H) as (l & x & ->). rewrite rev_app_distr. cbn. now rewrite <- app_assoc.
  - apply IH; auto.
  - destruct C as [_ C]. destruct (IH (addBack os d) ver C (addBack_nonempty _ _)) as (os' & E & R).
    exists os'. rewrite E, length_addBack by apply path_nonempty. split; auto.
    rewrite R, rev_addBack by assumption. unfold glue. cbn [hd tl].
    rewrite addBack_addBack. now rewrite (Z.add_comm d).
  - destruct C; congruence.
Qed.

Definition zeroIndex : nat -> Z := fun _ => 0.

(** offsets and over-approximation of the location of a value *)
Definition shape (bound : nat) (v : value) : list Z * bool :=
  match stem v with
  | None => let p := path zeroIndex v in (firstn bound p, (bound <=? length p)%nat)
  | Some q => (firstn bound (path zeroIndex q), true)
  end.

Definition shaped (bound : nat) (v : value) (a : location) : Prop :=
  base a = root v /\ offsets a = fst (shape bound v) /\ (lifetime a = 0%nat <-> snd (shape bound v) = true).

Lemma walk_shape bound v : (1 <= bound)%nat ->
  exists os ver, walk bound v [0] 1 = (root v, os, ver) /\
    firstn bound (rev os) = fst (shape bound v) /\
    ((bound - Nat.min ver bound)%nat = 0%nat <-> snd (shape bound v) = true) /\
    (length os <= ver \/ stem v <> None)%nat /\
    (ver = length os \/ snd (shape bound v) = true).
Proof.
  intro B. unfold shape. destruct (stem v) as [q|] eqn:E.
  - rewrite (walk_stem _ _ _ _ _ E).
    pose proof (proj2 (stem_constant q) (stem_stem _ _ E)) as C.
    destruct (walk_constant bound q [0] bound zeroIndex C ltac:(discriminate)) as (os & W & R).
    rewrite W, (stem_root _ _ E). eexists os, _. split; [reflexivity|].
    cbn [fst snd]. rewrite R. unfold glue. cbn [rev app hd tl].
    rewrite addBack_0, app_nil_r by apply path_nonempty.
    repeat split; auto; try lia. right. congruence.
  - destruct (walk_constant bound v [0] 1 zeroIndex (proj2 (stem_constant v) E) ltac:(discriminate)) as (os & W & R).
    rewrite W. eexists os, _. split; [reflexivity|]. cbn [fst snd].
    assert (L : length os = length (path zeroIndex v)).
    { rewrite <- (rev_length os), R. unfold glue. cbn [rev app hd tl].
      now rewrite addBack_0, app_nil_r by apply path_nonempty. }
    rewrite R. unfold glue. cbn [rev app hd tl].
    rewrite addBack_0, app_nil_r by apply path_nonempty.
    pose proof (path_nonempty zeroIndex v). destruct (path zeroIndex v) as [|x p]; [congruence|].
    cbn [length] in *. split; [reflexivity|]. rewrite Nat.leb_le. repeat split; try lia.
Qed.

Lemma shape_length bound v : (length (fst (shape bound v)) <= bound)%nat.
Proof. unfold shape. destruct (stem v); cbn [fst]; apply firstn_le_length. Qed.

Lemma shape_nonempty bound v : (1 <= bound)%nat -> fst (shape bound v) <> [].
Proof.
  intros B. unfold shape. destruct bound; [lia|].
  destruct (stem v) as [q|]; cbn [fst];
    [pose proof (path_nonempty zeroIndex q) as N; destruct (path zeroIndex q)
    |pose proof (path_nonempty zeroIndex v) as N; destruct (path zeroIndex v)]; cbn; congruence.
Qed.

(** ** Invariant of factories *)
Definition sound_location (bound : nat) (a : location) : Prop :=
  (length (offsets a) + lifetime a <= bound)%nat /\ (lifetime a <> 0%nat -> offsets a <> []).

Definition unique (l : list location) : Prop := NoDup (map profileOf l).

Record invariant (bound : nat) (f : factory) : Prop := mkInv {
  inv_unique : unique (pool f);
  inv_sound : forall a, In a (pool f) -> sound_location bound a;
  inv_cached : forall v a, afind v (cache f) = Some a -> In a (pool f) /\ shaped bound v a }.

Lemma unique_key f a b : unique (pool f) -> In a (pool f) -> In b (pool f) -> profileOf a = profileOf b -> a = b.
Proof.
  unfold unique. intros U. induction (pool f) as [|x l IH]; [contradiction|].
  cbn in U. inversion U as [|? ? N U']; subst. intros [->|I] [->|J] E; auto.
  - exfalso. apply N. rewrite E. apply in_map, J.
  - exfalso. apply N. rewrite <- E. apply in_map, I.
Qed.

Lemma known_sound bound f a : invariant bound f -> known f a -> sound_location bound a.
Proof.
  intros J [I| ->]; [apply (inv_sound _ _ J), I|]. split; cbn; [lia|congruence].
Qed.

(** a step taken through [getOrCreate] *)
Definition step_ok (bound : nat) (f f' : factory) (a : location) : Prop :=
  invariant bound f' /\ known f' a /\ incl (pool f) (pool f').

Lemma getOrCreate_step bound f v offs life f' a :
  invariant bound f -> (length offs + life <= bound)%nat ->
  getOrCreate f v offs life = Some (f', a) ->
  step_ok bound f f' a /\ In a (pool f') /\ as_asked v offs life a.
Proof.
  intros J L H. apply getOrCreate_spec in H as (A & C & I & N & D).
  refine (conj (conj _ (conj (or_introl I) _)) (conj I A)).
  - destruct D as [[-> _]|(P & E & F)]; [assumption|]. constructor.
    + unfold unique. rewrite P. cbn. constructor; [|apply (inv_unique _ _ J)].
      intro M. apply in_map_iff in M as (b & Eb & Ib). eapply F; eauto.
    + rewrite P. intros b [<-|Ib]; [|now apply (inv_sound _ _ J)].
      subst a. split; cbn; auto.
    + rewrite C. intros w b Hb. destruct (inv_cached _ _ J _ _ Hb) as [Ib S].
      split; auto. rewrite P. now right.
  - destruct D as [[-> _]|(P & _ & _)]; [apply incl_refl|]. rewrite P. apply incl_tl, incl_refl.
Qed.

Lemma step_refl bound f a : invariant bound f -> known f a -> step_ok bound f f a.
Proof. intros J K. exact (conj J (conj K (incl_refl _))). Qed.

Lemma remember_step bound f f' a v :
  step_ok bound f f' a -> In a (pool f') -> shaped bound v a ->
  step_ok bound f (mkFactory (pool f') (aset v a (cache f'))) a.
Proof.
  intros (J & K & I) In' S. refine (conj _ (conj _ I)).
  - constructor; cbn; try apply J. intros w b. rewrite afind_aset.
    destruct (eq_dec w v); [intros [= <-]; subst; auto|]. apply (inv_cached _ _ J).
  - destruct K; [now left|now right].
Qed.

Lemma create_ok bound f v : (1 <= bound)%nat -> invariant bound f ->
  exists f' a, create bound f v = Some (f', a) /\ step_ok bound f f' a /\ In a (pool f') /\ shaped bound v a.
Proof.
  intros B J. unfold create. destruct (afind v (cache f)) as [a|] eqn:C.
  - destruct (inv_cached _ _ J _ _ C) as [I S]. exists f, a.
    refine (conj eq_refl (conj (step_refl _ _ _ J (or_introl I)) (conj I S))).
  - destruct (definesItself v) eqn:D.
    + unfold getOrCreateBase.
      destruct (getOrCreate_total f v [0] (if (bound =? 0)%nat then 0%nat else bound - 1)%nat ltac:(discriminate))
        as (f' & a & E). rewrite E. cbn [remember].
      assert (L : (length [0%Z] + (if (bound =? 0)%nat then 0 else bound - 1) <= bound)%nat)
        by (cbn [length]; destruct (Nat.eqb_spec bound 0); lia).
      destruct (getOrCreate_step bound _ _ _ _ _ _ J L E) as (ST & I & A).
      assert (S : shaped bound v a).
      { destruct A as (A1 & A2 & A3). destruct (Nat.eqb_spec bound 0); [lia|].
        destruct v as [|n' b'| | |]; try discriminate D;
        (unfold shaped; rewrite A1, A2; unfold shape; cbn [stem path root fst snd];
         refine (conj eq_refl (conj _ _));
           [destruct bound; [lia|]; cbn; now rewrite firstn_nil
           |rewrite A3; cbn [length]; rewrite Nat.leb_le; lia]). }
      eexists _, a. refine (conj eq_refl (conj _ (conj I S))). now apply remember_step.
    + destruct (walk_shape bound v B) as (os & ver & W & Sh & Li & LE & VE). rewrite W.
      rewrite rev_length.
      assert (G : exists f' a, getOrCreate f (root v) (fst (shape bound v)) (bound - Nat.min ver bound) = Some (f', a)).
      { apply getOrCreate_total. intros _. now apply shape_nonempty. }
      destruct G as (f' & a & G).
      assert (L : (length (fst (shape bound v)) + (bound - Nat.min ver bound) <= bound)%nat).
      { destruct VE as [->|T].
        - rewrite <- Sh, firstn_length, rev_length. lia.
        - apply Li in T. rewrite T. pose proof (shape_length bound v). lia. }
      destruct (getOrCreate_step bound _ _ _ _ _ _ J L G) as (ST & I & A).
      assert (S : shaped bound v a).
      { destruct A as (A1 & A2 & A3). refine (conj A1 (conj A2 _)). now rewrite A3. }
      destruct (Nat.ltb_spec bound (length os)) as [LT|GE].
      * replace (bound - Nat.min ver bound =? 0)%nat with true.
        -- rewrite Sh, G. cbn [remember]. eexists _, a.
           refine (conj eq_refl (conj _ (conj I S))). now apply remember_step.
        -- symmetry. apply Nat.eqb_eq. destruct VE as [->|T]; [lia|]. now apply Li.
      * replace (rev os) with (fst (shape bound v)).
        -- rewrite G. cbn [remember]. eexists _, a.
           refine (conj eq_refl (conj _ (conj I S))). now apply remember_step.
        -- rewrite <- Sh. apply firstn_all2. rewrite rev_length. lia.
Qed.

(** ** The other requests *)
Definition done (bound : nat) (f : factory) (r : result) (P : location -> Prop) : Prop :=
  exists f' a, r = Some (f', a) /\ step_ok bound f f' a /\ P a.

Lemma getOrCreate_done bound f v offs life (P : location -> Prop) :
  invariant bound f -> (length offs + life <= bound)%nat -> (life <> 0%nat -> offs <> []) ->
  (forall a, as_asked v offs life a -> P a) -> done bound f (getOrCreate f v offs life) P.
Proof.
  intros J L N Q. destruct (getOrCreate_total f v offs life N) as (f' & a & E).
  destruct (getOrCreate_step _ _ _ _ _ _ _ J L E) as (S & _ & A). exists f', a. auto.
Qed.

Lemma done_refl bound f a (P : location -> Prop) : invariant bound f -> known f a -> P a -> done bound f (Some (f, a)) P.
Proof. intros J K Q. exists f, a. auto using step_refl. Qed.

Lemma covers_zero a ps : lifetime a = 0%nat -> (covers a ps <-> isPrefix (offsets a) ps).
Proof. intro H. unfold covers. rewrite H. tauto. Qed.
Lemma covers_pos a ps : lifetime a <> 0%nat -> (covers a ps <-> offsets a = ps).
Proof. intro H. unfold covers. destruct (Nat.eqb_spec (lifetime a) 0); [congruence|tauto]. Qed.
Lemma covers_eq a ps : offsets a = ps -> covers a ps.
Proof. intros <-. unfold covers. destruct (_ =? _)%nat; [apply isPrefix_refl|reflexivity]. Qed.

(** as many offsets as there is room for *)
Lemma covers_cut v offs n life a : as_asked v (firstn n offs) life a ->
  (life = 0%nat \/ (length offs <= n)%nat) -> covers a offs.
Proof.
  intros (_ & O & Z) [->|L].
  - apply covers_zero; [now apply Z|]. rewrite O. apply isPrefix_firstn.
  - apply covers_eq. rewrite O. apply firstn_all2, L.
Qed.

Lemma indirection_ok bound f a ind : invariant bound f -> known f a ->
  done bound f (withIndirectionOf f a ind) (fun r => base r = base a /\
    forall ps, covers a ps -> covers r (ps ++ match ind with [] => [0] | _ => ind end)).
Proof.
  intros J K. pose proof (known_sound _ _ _ J K) as [S1 S2].
  unfold withIndirectionOf. destruct (Nat.eqb_spec (lifetime a) 0) as [Z|Z].
  - apply done_refl; auto. split; auto. intros ps C. apply covers_zero in C; auto.
    apply covers_zero; auto. now apply isPrefix_app.
  - destruct ind as [|i ind].
    + change (eqb (A:=list BinNums.Z) [] []) with true. cbn iota. apply getOrCreate_done; auto.
      * rewrite app_length. cbn [length]. lia.
      * intros _. destruct (offsets a); discriminate.
      * intros r (B & O & _). split; auto. intros ps C. apply covers_pos in C; auto.
        subst ps. now apply covers_eq.
    + change (eqb (i :: ind) []) with false. cbn iota. set (is := i :: ind) in *.
      destruct (Nat.ltb_spec (lifetime a) (length is)).
      * apply getOrCreate_done; auto.
        -- rewrite app_length, firstn_length. lia.
        -- intros _. destruct (offsets a) eqn:E; [exfalso; now apply S2|discriminate].
        -- intros r (B & O & L). split; auto. intros ps C. apply covers_pos in C; auto. subst ps.
           apply covers_zero; [apply L; rewrite firstn_length; lia|].
           rewrite O. exists (skipn (lifetime a) is). now rewrite <- app_assoc, firstn_skipn.
      * apply getOrCreate_done; auto.
        -- rewrite app_length. lia.
        -- intros _. destruct (offsets a) eqn:E; [exfalso; now apply S2|discriminate].
        -- intros r (B & O & L). split; auto. intros ps C. apply covers_pos in C; auto. subst ps.
           now apply covers_eq.
Qed.

Lemma eqb_nil (os : list Z) : os <> [] -> eqb os [] = false.
Proof. intro H. now apply Assoc.eqb_false. Qed.

Lemma offset_ok bound f a gep : invariant bound f -> known f a ->
  done bound f (withOffset f a gep) (fun r => base r = base a /\
    forall ps, lifetime a <> 0%nat -> covers a ps ->
      match gep with
      | Some d => forall qs, shifted d ps qs -> covers r qs
      | None => forall d qs, shifted d ps qs -> covers r qs
      end).
Proof.
  intros J K. pose proof (known_sound _ _ _ J K) as [S1 S2].
  unfold withOffset. destruct (Nat.eqb_spec (lifetime a) 0) as [Z|Z].
  - apply done_refl; auto. split; auto. congruence.
  - destruct gep as [d|].
    + rewrite eqb_nil by auto. apply getOrCreate_done; auto.
      * rewrite length_addBack; auto.
      * intros _. apply addBack_nonempty.
      * intros r (B & O & _). split; auto. intros ps _ C qs Sh. apply covers_pos in C; auto. subst ps.
        apply shifted_inv in Sh as [_ ->]. now apply covers_eq.
    + apply getOrCreate_done; auto.
      * destruct (isPrefix_removelast (offsets a)) as [x E].
        apply (f_equal (@length _)) in E. rewrite app_length in E. lia.
      * intros r (B & O & L). split; auto. intros ps _ C d qs Sh. apply covers_pos in C; auto. subst ps.
        apply shifted_inv in Sh as [_ ->]. apply covers_zero; [now apply L|].
        rewrite O. apply isPrefix_removelast_addBack.
Qed.

Lemma offsets_ok bound f a offs : invariant bound f -> known f a ->
  done bound f (withOffsets f a offs) (fun r => base r = base a /\
    forall ps, lifetime a <> 0%nat -> covers a ps ->
      match offs with
      | [] => covers r ps
      | o :: os => forall qs, shifted o ps qs -> covers r (qs ++ os)
      end).
Proof.
  intros J K. pose proof (known_sound _ _ _ J K) as [S1 S2].
  unfold withOffsets. destruct offs as [|o os].
  - apply done_refl; auto.
  - destruct (Nat.eqb_spec (lifetime a) 0) as [Z|Z].
    + apply done_refl; auto. split; auto. congruence.
    + rewrite eqb_nil by auto.
      replace (length (o :: os) - 1)%nat with (length os) by (cbn; lia).
      destruct (Nat.ltb_spec (lifetime a) (length os)).
      * replace (lifetime a + 1)%nat with (S (lifetime a)) by lia.
        cbn [firstn tl length]. rewrite firstn_length.
        apply getOrCreate_done; auto.
        -- rewrite app_length, firstn_length, length_addBack by auto. lia.
        -- intros _ E. apply app_eq_nil in E as [E _]. now apply addBack_nonempty in E.
        -- intros r (B & O & L). split; auto. intros ps _ C qs Sh. apply covers_pos in C; auto. subst ps.
           apply shifted_inv in Sh as [_ ->]. apply covers_zero; [apply L; lia|].
           rewrite O. exists (skipn (lifetime a) os). now rewrite <- app_assoc, firstn_skipn.
      * cbn [tl length]. apply getOrCreate_done; auto.
        -- rewrite app_length, length_addBack by auto. lia.
        -- intros _ E. apply app_eq_nil in E as [E _]. now apply addBack_nonempty in E.
        -- intros r (B & O & L). split; auto. intros ps _ C qs Sh. apply covers_pos in C; auto. subst ps.
           apply shifted_inv in Sh as [_ ->]. now apply covers_eq.
Qed.

Lemma transferFrom_ok bound f a to : invariant bound f -> known f a -> known f to ->
  done bound f (withTransferFrom f a to) (fun r => base r = base to /\
    forall ps o os qs, lifetime a <> 0%nat -> lifetime to <> 0%nat ->
      covers a (o :: os) -> covers to ps -> shifted o ps qs -> covers r (qs ++ os)).
Proof.
  intros J K K'. pose proof (known_sound _ _ _ J K) as [S1 S2]. pose proof (known_sound _ _ _ J K') as [T1 T2].
  unfold withTransferFrom. destruct (Nat.eqb_spec (lifetime a) 0) as [Z|Z].
  - apply done_refl; auto. split; auto. congruence.
  - set (offs := match offsets a with [] => _ | _ => _ end).
    set (mx := Nat.min _ (length (offsets to) + lifetime to)).
    destruct (Nat.ltb_spec mx (length offs)) as [L|L].
    + apply getOrCreate_done; auto.
      * rewrite firstn_length. lia.
      * rewrite firstn_length. lia.
      * intros r A. split; [apply A|]. intros ps o os qs _ Z' Ca Ct Sh.
        apply covers_pos in Ca; auto. apply covers_pos in Ct; auto. subst ps.
        apply shifted_inv in Sh as [Ne ->].
        assert (E : offs = addBack (offsets to) o ++ os).
        { unfold offs. rewrite Ca. now rewrite eqb_nil. }
        rewrite <- E. eapply covers_cut; [exact A|]. left. rewrite firstn_length. lia.
    + apply getOrCreate_done; auto.
      * lia.
      * intros H E. rewrite E in H, L. cbn in L. unfold offs in E.
        destruct (offsets a) as [|o os] eqn:Ea; [now apply S2|].
        destruct (eqb (offsets to) []) eqn:Et.
        -- apply eqb_eq in Et. unfold mx in H. rewrite Et in H. cbn in H.
           destruct (Nat.eq_dec (lifetime to) 0) as [Z'|Z']; [rewrite Z' in H; lia|].
           now apply T2.
        -- apply app_eq_nil in E as [E _]. now apply addBack_nonempty in E.
      * intros r A. split; [apply A|]. intros ps o os qs _ Z' Ca Ct Sh.
        apply covers_pos in Ca; auto. apply covers_pos in Ct; auto. subst ps.
        apply shifted_inv in Sh as [Ne ->].
        assert (E : offs = addBack (offsets to) o ++ os).
        { unfold offs. rewrite Ca. now rewrite eqb_nil. }
        rewrite <- E. apply covers_eq, A.
Qed.

Lemma removelast_zero_length (os : list Z) : os <> [] -> length (removelast os ++ [0]) = length os.
Proof.
  intro H. destruct (exists_last H) as (l & x & ->). now rewrite removelast_last, !app_length.
Qed.

(** what [withTransferTo] asks for *)
Lemma transferTo_ok bound f a from to : (1 <= bound)%nat -> invariant bound f -> known f a -> known f from ->
  done bound f (withTransferTo f a from to) (fun r => base r = to /\
    (lifetime a = 0%nat -> lifetime from = 0%nat -> offsets r = [0] /\ lifetime r = 0%nat) /\
    (lifetime a <> 0%nat -> lifetime from <> 0%nat -> (length (offsets from) <= length (offsets a))%nat ->
       offsets r = removelast (skipn (length (offsets from) - 1) (offsets a)) ++ [0])).
Proof.
  intros Bd J K K'. pose proof (known_sound _ _ _ J K) as [S1 S2]. pose proof (known_sound _ _ _ J K') as [T1 T2].
  unfold withTransferTo, getOrCreateBase.
  destruct ((lifetime a =? 0)%nat && (lifetime from =? 0)%nat) eqn:Z.
  - apply andb_true_iff in Z as [Z1 Z2]. apply Nat.eqb_eq in Z1, Z2. cbn [Nat.eqb].
    apply getOrCreate_done; auto.
    intros r (B & O & L). refine (conj B (conj _ _)); [|congruence].
    intros _ _. split; auto. now apply L.
  - assert (Q : forall larger smaller, (length smaller <= length larger)%nat -> (length larger + Nat.min (lifetime a) (lifetime from) <= bound)%nat ->
        (Nat.min (lifetime a) (lifetime from) <> 0%nat -> larger <> []) ->
        (lifetime a <> 0%nat -> lifetime from <> 0%nat -> (length (offsets from) <= length (offsets a))%nat ->
           larger = offsets a /\ smaller = offsets from) ->
        done bound f (let offs := if eqb smaller [] then larger else skipn (length smaller - 1) larger in
           let offs' := if eqb offs [] then [] else removelast offs ++ [0] in
           getOrCreate f to offs' (Nat.min (lifetime a) (lifetime from)))
          (fun r => base r = to /\
    (lifetime a = 0%nat -> lifetime from = 0%nat -> offsets r = [0] /\ lifetime r = 0%nat) /\
    (lifetime a <> 0%nat -> lifetime from <> 0%nat -> (length (offsets from) <= length (offsets a))%nat ->
       offsets r = removelast (skipn (length (offsets from) - 1) (offsets a)) ++ [0]))).
    { intros larger smaller L1 L2 L3 L4. cbv zeta.
      set (offs := if eqb smaller [] then larger else skipn (length smaller - 1) larger).
      assert (Lo : (length offs <= length larger)%nat).
      { unfold offs. destruct (eqb smaller []); [lia|]. rewrite skipn_length. lia. }
      assert (No : larger <> [] -> offs <> []).
      { intros N E. unfold offs in E. destruct (eqb smaller []) eqn:Es; [auto|].
        apply (f_equal (@length _)) in E. rewrite skipn_length in E. cbn in E.
        destruct smaller as [|x smaller]; [discriminate Es|]. cbn [length] in *. lia. }
      apply getOrCreate_done; auto.
      - destruct (eqb offs []) eqn:Eo; [cbn; lia|]. apply Assoc.eqb_false in Eo.
        rewrite removelast_zero_length by assumption. lia.
      - intro N. rewrite eqb_nil by auto. destruct (removelast offs); discriminate.
      - intros r (B & O & L). refine (conj B (conj _ _)).
        + intros Z1 Z2. rewrite Z1, Z2 in Z. discriminate.
        + intros Z1 Z2 Le. destruct (L4 Z1 Z2 Le) as [-> ->]. rewrite O, eqb_nil by (apply No; auto).
          unfold offs. rewrite eqb_nil by auto. reflexivity. }
    destruct (Nat.leb_spec (length (offsets from)) (length (offsets a))) as [L|L].
    + apply (Q (offsets a) (offsets from)); auto; try lia.
      intros N. apply S2. lia.
    + apply (Q (offsets from) (offsets a)); auto; try lia.
      intros N. apply T2. lia.
Qed.

(** ** Histories *)
Lemma serve_ok bound f r : (1 <= bound)%nat -> invariant bound f -> legal f r ->
  done bound f (serve bound f r) (fun _ => True).
Proof.
  intros B J L. destruct r as [v|a ind|a gep|a offs|a from to|a to]; cbn [serve legal] in *.
  - destruct (create_ok bound f v B J) as (f' & a & E & S & _). exists f', a. auto.
  - destruct (indirection_ok bound f a ind J L) as (f' & b & E & S & _). exists f', b. auto.
  - destruct (offset_ok bound f a gep J L) as (f' & b & E & S & _). exists f', b. auto.
  - destruct (offsets_ok bound f a offs J L) as (f' & b & E & S & _). exists f', b. auto.
  - destruct L as [L L'].
    destruct (transferTo_ok bound f a from to B J L L') as (f' & b & E & S & _). exists f', b. auto.
  - destruct L as [L L'].
    destruct (transferFrom_ok bound f a to J L L') as (f' & b & E & S & _). exists f', b. auto.
Qed.

Lemma invariant_empty bound : invariant bound emptyFactory.
Proof. constructor; cbn; [constructor|contradiction|discriminate]. Qed.

Lemma grown_invariant bound f : (1 <= bound)%nat -> grown bound f -> invariant bound f.
Proof.
  intros B. induction 1 as [|f r f' a G IH L E]; [apply invariant_empty|].
  destruct (serve_ok bound f r B IH L) as (f1 & a1 & E1 & (J & _) & _). congruence.
Qed.

(** ** The memory pool *)
Record arena (m : allocator) (os : list object) : Prop := mkArena {
  ar_pos : 0 <= pos m <= stop m;
  ar_stop : match blocks m with [] => stop m = 0 | cap :: _ => stop m = cap end;
  ar_within : forall o, In o os -> within (blocks m) o;
  ar_newest : forall k s n, In (k, s, n) os ->
    (k < length (blocks m))%nat /\ (k = (length (blocks m) - 1)%nat -> s + n <= pos m);
  ar_apart : ForallOrdPairs apart os }.

Lemma arena_new capacity : arena (newAllocator capacity) [].
Proof.
  unfold newAllocator. destruct (Z.leb_spec capacity 1024); constructor; cbn [blocks pos stop];
    unfold minPointers; try lia; try (intros; contradiction); constructor.
Qed.

Lemma within_more sizes cap o : within sizes o -> within (cap :: sizes) o.
Proof.
  destruct o as [[k s] n]. intros (c & E & H). exists c. split; auto. cbn [rev].
  rewrite nth_error_app1; auto. apply nth_error_Some. congruence.
Qed.

Lemma nth_newest (l : list Z) cap k : k = length l -> nth_error (rev l ++ [cap]) k = Some cap.
Proof.
  intros ->. rewrite <- (rev_length l). rewrite nth_error_app2, Nat.sub_diag by lia. reflexivity.
Qed.

Lemma arena_step m os n m' o : arena m os -> Z.of_nat n + minPointers <= perBlock ->
  allocate m n = (m', o) -> arena m' (o :: os).
Proof.
  intros A F H. unfold allocate in H.
  set (required := minPointers + Z.of_nat n) in *.
  assert (R : 0 < required) by (unfold required, minPointers; lia).
  assert (F' : required <= perBlock) by (unfold required; lia).
  clearbody required. clear F.
  destruct (Z.ltb_spec (stop m - pos m) required) as [L|L]; injection H as <- <-.
  - cbn [blocks pos stop]. constructor; cbn [blocks pos stop].
    + lia.
    + reflexivity.
    + intros p [<-|I]; [|now apply within_more, (ar_within _ _ A)].
      exists perBlock. split; [|lia]. apply nth_newest. cbn [length]. lia.
    + intros k s q [E|I].
      * injection E as <- <- <-. cbn [length]. lia.
      * apply (ar_newest _ _ A) in I as [K _]. cbn [length]. split; [lia|]. intro. lia.
    + constructor; [|apply (ar_apart _ _ A)]. apply Forall_forall. intros [[k s] q] I.
      apply (ar_newest _ _ A) in I as [K _]. left. cbn [length]. lia.
  - pose proof (ar_pos _ _ A) as P. pose proof (ar_stop _ _ A) as S.
    destruct (blocks m) as [|cap older] eqn:Eb; [lia|].
    constructor; cbn [blocks pos stop]; rewrite ?Eb.
    + lia.
    + exact S.
    + intros p [<-|I]; [|rewrite <- Eb; now apply (ar_within _ _ A)].
      exists cap. split; [|lia]. apply nth_newest. cbn [length]. lia.
    + intros k s q [E|I].
      * injection E as <- <- <-. cbn [length]. lia.
      * apply (ar_newest _ _ A) in I. rewrite Eb in I. destruct I as [K N]. split; [exact K|].
        intro E. specialize (N E). lia.
    + constructor; [|apply (ar_apart _ _ A)]. apply Forall_forall. intros [[k s] q] I.
      apply (ar_newest _ _ A) in I. rewrite Eb in I. destruct I as [K N].
      destruct (Nat.eq_dec k (length (cap :: older) - 1)) as [E|E]; [|left; congruence].
      right. right. auto.
Qed.
