(** Proofs about the hierarchy built from debug information. *)
From Coq Require Import String List Bool Arith Lia Relations.
From Verif Require Import Assoc DIHierarchyModel DIHierarchySpec.
Import ListNotations.
#[local] Existing Instance EqDec_diname.

(** ** Maps *)
Lemma emplace_find {K V} `{EqDec K} (k k' : K) (v : V) l :
  afind k' (emplace k v l) = match afind k' l with Some x => Some x | None => if eq_dec k' k then Some v else None end.
Proof.
  assert (A : forall l, afind k' (l ++ [(k, v)]) =
    match afind k' l with Some x => Some x | None => if eq_dec k' k then Some v else None end).
  { induction l0 as [|[a b] l0 IH]; cbn; [reflexivity|]. destruct (eq_dec k' a); [reflexivity|exact IH]. }
  unfold emplace. destruct (afind k l) eqn:E; [|apply A].
  destruct (afind k' l) eqn:E'; [reflexivity|]. destruct (eq_dec k' k); [congruence|reflexivity].
Qed.
Lemma upd_same {A} (f : nat -> A) i v : upd f i v i = v.
Proof. unfold upd. rewrite Nat.eqb_refl. reflexivity. Qed.
Lemma upd_other {A} (f : nat -> A) i j v : j <> i -> upd f i v j = f j.
Proof. intros X. unfold upd. apply Nat.eqb_neq in X. rewrite X. reflexivity. Qed.
Lemma strip_names b t : names b t <-> strip b = t.
Proof.
  split.
  - induction 1; [reflexivity|exact IHnames].
  - revert t. induction b as [x|b IH]; cbn; intros t X; [subst; constructor|constructor; apply IH, X].
Qed.
Lemma key_getTypeName x : key x = getTypeName x.
Proof. destruct x as [tag n [|a i] es|n]; reflexivity. Qed.
Lemma tyName_getName x : tyName x = getName x.
Proof. destruct x; reflexivity. Qed.

(** ** The vertices *)
Definition classb (m : modul) (t : nat) : bool := match mTy m t with Composite tag _ _ _ => isClassTag tag | OtherType _ => false end.
Definition addV (m : modul) (acc : vertices) (t : nat) : vertices :=
  let '(tv, vt, nt) := acc in (emplace t (length vt) tv, vt ++ [t], emplace (getTypeName (mTy m t)) t nt).
Lemma isClass_classb m t : isClass m t <-> In t (mTypes m) /\ classb m t = true.
Proof.
  unfold isClass, classb. split.
  - intros (I & tag & n & i & es & E & T). split; [exact I|]. rewrite E. destruct tag; [reflexivity..|contradiction].
  - intros (I & C). split; [exact I|]. destruct (mTy m t) as [tag n i es|n] eqn:E; [|discriminate].
    exists tag, n, i, es. split; [reflexivity|]. intros ->. discriminate.
Qed.
(** what the three containers are after the types [vt] were added *)
Definition vertsOk (m : modul) (x : vertices) (l : list nat) : Prop :=
  let '(tv, vt, nt) := x in
  vt = l /\ (forall t i, afind t tv = Some i <-> nth_error vt i = Some t) /\ length tv = length vt /\
  (forall n, afind n nt = find (fun t => String.eqb (getTypeName (mTy m t)) n) vt).
Lemma find_app {A} (p : A -> bool) l1 l2 : find p (l1 ++ l2) = match find p l1 with Some x => Some x | None => find p l2 end.
Proof. induction l1 as [|a l1 IH]; cbn; [reflexivity|]. destruct (p a); [reflexivity|exact IH]. Qed.
Lemma addV_ok m x l t : vertsOk m x l -> ~ In t l -> vertsOk m (addV m x t) (l ++ [t]).
Proof.
  destruct x as [[tv vt] nt]. intros (-> & A & L & B) N. unfold addV, vertsOk.
  assert (NT : afind t tv = None).
  { destruct (afind t tv) eqn:E; [|reflexivity]. apply A in E. apply nth_error_In in E. contradiction. }
  split; [reflexivity|]. split; [|split].
  - intros t' i. rewrite emplace_find. destruct (afind t' tv) as [j|] eqn:E.
    + pose proof (proj1 (A _ _) E) as E1. split.
      * intros [= <-]. rewrite nth_error_app1; [exact E1|]. apply nth_error_Some. congruence.
      * intros X. destruct (Nat.lt_ge_cases i (length l)) as [I|I].
        -- rewrite nth_error_app1 in X by exact I. apply A in X. congruence.
        -- rewrite nth_error_app2 in X by exact I.
           destruct (i - length l) as [|k]; cbn in X; [|destruct k; discriminate]. inversion X; subst.
           exfalso. apply N. eapply nth_error_In, E1.
    + destruct (eq_dec t' t) as [->|Y].
      * split.
        -- intros [= <-]. rewrite nth_error_app2, Nat.sub_diag by lia. reflexivity.
        -- intros X. destruct (Nat.lt_ge_cases i (length l)) as [I|I].
           ++ rewrite nth_error_app1 in X by exact I. exfalso. apply N. eapply nth_error_In, X.
           ++ rewrite nth_error_app2 in X by exact I.
              destruct (i - length l) as [|k] eqn:K; cbn in X; [f_equal; lia|destruct k; discriminate].
      * split; [discriminate|]. intros X. destruct (Nat.lt_ge_cases i (length l)) as [I|I].
        -- rewrite nth_error_app1 in X by exact I. apply A in X. congruence.
        -- rewrite nth_error_app2 in X by exact I.
           destruct (i - length l) as [|k]; cbn in X; [congruence|destruct k; discriminate].
  - unfold emplace. rewrite NT. rewrite !app_length. cbn. lia.
  - intros n. rewrite emplace_find, B, find_app. destruct (find _ l); [reflexivity|]. cbn.
    destruct (eq_dec n (getTypeName (mTy m t))) as [->|Y]; [rewrite String.eqb_refl; reflexivity|].
    destruct (String.eqb_spec (getTypeName (mTy m t)) n); [congruence|reflexivity].
Qed.
Lemma addV_fold m l x l0 : vertsOk m x l0 -> NoDup (l0 ++ l) -> vertsOk m (fold_left (addV m) l x) (l0 ++ l).
Proof.
  revert x l0. induction l as [|t l IH]; intros x l0 V N; cbn.
  - rewrite app_nil_r. exact V.
  - replace (l0 ++ t :: l) with ((l0 ++ [t]) ++ l) in * by (rewrite <- app_assoc; reflexivity).
    apply IH; [|exact N]. apply addV_ok; [exact V|].
    rewrite <- app_assoc in N. cbn in N. apply NoDup_remove_2 in N. intros I. apply N. apply in_or_app. left. exact I.
Qed.
Definition classes (m : modul) : list nat := filter (classb m) (mTypes m).
Lemma collect_fold m l x l0 : vertsOk m x l0 -> NoDup (l0 ++ l) ->
  (forall t, In t l -> classb m t = true -> getTypeName (mTy m t) <> ""%string) ->
  fold_left (addType m) l (Some x) = Some (fold_left (addV m) (filter (classb m) l) x).
Proof.
  revert x l0. induction l as [|t l IH]; intros x l0 V N K; [reflexivity|]. cbn [fold_left filter].
  assert (Nt : ~ In t l0). { apply NoDup_remove_2 in N. intros I. apply N. apply in_or_app. left. exact I. }
  destruct x as [[tv vt] nt]. pose proof V as V0. destruct V as (-> & A & L & B).
  unfold addType at 2, classb at 1. destruct (mTy m t) as [tag n i es|n] eqn:E.
  - destruct (isClassTag tag) eqn:T; cbn [negb].
    + assert (NT : afind t tv = None).
      { destruct (afind t tv) eqn:F; [|reflexivity]. apply A in F. apply nth_error_In in F. contradiction. }
      rewrite NT. destruct (String.eqb_spec (getTypeName (Composite tag n i es)) "") as [X|X].
      { exfalso. apply (K t (or_introl eq_refl)); [unfold classb; rewrite E; exact T|rewrite E; exact X]. }
      cbn [fold_left]. rewrite <- E.
      apply (IH (addV m (tv, l0, nt) t) (l0 ++ [t])).
      * apply addV_ok; assumption.
      * rewrite <- app_assoc. exact N.
      * intros u I. apply K. right. exact I.
    + apply (IH _ l0); [exact V0| |intros u I; apply K; right; exact I]. apply NoDup_remove_1 in N. exact N.
  - apply (IH _ l0); [exact V0| |intros u I; apply K; right; exact I]. apply NoDup_remove_1 in N. exact N.
Qed.
Lemma vertsOk_nil m : vertsOk m ([], [], []) [].
Proof.
  split; [reflexivity|]. split; [|split; reflexivity]. intros t i. cbn. destruct i; split; discriminate.
Qed.
Lemma collectTypes_ok m : NoDup (mTypes m) -> named m ->
  collectTypes m = Some (fold_left (addV m) (classes m) ([], [], [])).
Proof.
  intros N K. unfold collectTypes. apply (collect_fold m _ _ []).
  - apply vertsOk_nil.
  - exact N.
  - intros t I C. rewrite <- key_getTypeName. apply K. apply isClass_classb. split; assumption.
Qed.
Lemma classes_nodup m : NoDup (mTypes m) -> NoDup (classes m).
Proof. apply NoDup_filter. Qed.
Lemma classes_in m t : In t (classes m) <-> isClass m t.
Proof. unfold classes. rewrite filter_In, isClass_classb. reflexivity. Qed.

(** ** The graph *)
Lemma elements_fold tv d es tg :
  (forall r, In (Inherits r) es -> afind (strip r) tv <> None) ->
  exists tg', fold_left (addElement tv d) es (Some tg) = Some tg' /\
    (forall i, Roots tg' i = true <-> Roots tg i = true /\ (i = d -> forall r, ~ In (Inherits r) es)) /\
    (forall b x, In x (DerivedTypesOf tg' b) <-> In x (DerivedTypesOf tg b) \/
        (x = d /\ exists r, In (Inherits r) es /\ afind (strip r) tv = Some b)).
Proof.
  revert tg. induction es as [|e es IH]; intros tg H.
  - exists tg. split; [reflexivity|]. split.
    + intros i. split; [intros X; split; [exact X|intros _ r []]|intros [X _]; exact X].
    + intros b x. split; [intros X; left; exact X|intros [X|(_ & r & [] & _)]; exact X].
  - cbn [fold_left]. destruct e as [r|].
    + unfold addElement at 2. destruct (afind (strip r) tv) as [bi|] eqn:E; [|exfalso; apply (H r); [left; reflexivity|exact E]].
      destruct (IH (mkTG (upd (Roots tg) d false) (upd (DerivedTypesOf tg) bi (DerivedTypesOf tg bi ++ [d])))) as (tg' & F & A & B).
      { intros r' I. apply H. right. exact I. }
      exists tg'. split; [exact F|]. split.
      * intros i. rewrite A. cbn [Roots]. destruct (Nat.eq_dec i d) as [->|Y].
        -- rewrite upd_same. split; [intros [X _]; discriminate|]. intros [_ X]. exfalso. apply (X eq_refl r). left. reflexivity.
        -- rewrite upd_other by exact Y. split; (intros [X _]; split; [exact X|congruence]).
      * intros b x. rewrite B. cbn [DerivedTypesOf]. destruct (Nat.eq_dec b bi) as [->|Y].
        -- rewrite upd_same, in_app_iff. split.
           ++ intros [[X|[<-|[]]]|(-> & r' & I & J)].
              ** left. exact X.
              ** right. split; [reflexivity|]. exists r. split; [left; reflexivity|exact E].
              ** right. split; [reflexivity|]. exists r'. split; [right; exact I|exact J].
           ++ intros [X|(-> & r' & [I|I] & J)].
              ** left. left. exact X.
              ** left. right. left. reflexivity.
              ** right. split; [reflexivity|]. exists r'. split; assumption.
        -- rewrite upd_other by exact Y. split.
           ++ intros [X|(-> & r' & I & J)]; [left; exact X|]. right. split; [reflexivity|]. exists r'. split; [right; exact I|exact J].
           ++ intros [X|(-> & r' & [I|I] & J)]; [left; exact X| |].
              ** inversion I; subst r'. congruence.
              ** right. split; [reflexivity|]. exists r'. split; assumption.
    + cbn [addElement]. destruct (IH tg) as (tg' & F & A & B). { intros r I. apply H. right. exact I. }
      exists tg'. split; [exact F|]. split.
      * intros i. rewrite A. split; intros [X Y]; (split; [exact X|]); intros Z r I; apply (Y Z r).
        -- destruct I as [I|I]; [discriminate|exact I].
        -- right. exact I.
      * intros b x. rewrite B. split; (intros [X|(-> & r & I & J)]; [left; exact X|right; split; [reflexivity|]; exists r; split; [|exact J]]).
        -- right. exact I.
        -- destruct I as [I|I]; [discriminate|exact I].
Qed.
Lemma composites_fold m tv l tg :
  (forall t, In t l -> afind t tv <> None /\ forall r, In (Inherits r) (elementsOf (mTy m t)) -> afind (strip r) tv <> None) ->
  exists tg', fold_left (addComposite m tv) l (Some tg) = Some tg' /\
    (forall i, Roots tg' i = true <-> Roots tg i = true /\
        forall t r, In t l -> afind t tv = Some i -> ~ In (Inherits r) (elementsOf (mTy m t))) /\
    (forall b x, In x (DerivedTypesOf tg' b) <-> In x (DerivedTypesOf tg b) \/
        exists t r, In t l /\ afind t tv = Some x /\ In (Inherits r) (elementsOf (mTy m t)) /\ afind (strip r) tv = Some b).
Proof.
  revert tg. induction l as [|t l IH]; intros tg H.
  - exists tg. split; [reflexivity|]. split.
    + intros i. split; [intros X; split; [exact X|intros t r []]|intros [X _]; exact X].
    + intros b x. split; [intros X; left; exact X|intros [X|(t & r & [] & _)]; exact X].
  - cbn [fold_left]. unfold addComposite at 2. destruct (H t (or_introl eq_refl)) as [Ht Hr].
    destruct (afind t tv) as [d|] eqn:E; [|congruence].
    destruct (elements_fold tv d (elementsOf (mTy m t)) tg Hr) as (tg1 & F1 & A1 & B1). rewrite F1.
    destruct (IH tg1) as (tg' & F & A & B). { intros u I. apply H. right. exact I. }
    exists tg'. split; [exact F|]. split.
    + intros i. rewrite A, A1. split.
      * intros [[X Y] Z]. split; [exact X|]. intros u r [<-|I] G; [apply Y; congruence|eapply Z; eassumption].
      * intros [X Z]. split; [split; [exact X|]|].
        -- intros -> r. apply (Z t r); [left; reflexivity|exact E].
        -- intros u r I. apply Z. right. exact I.
    + intros b x. rewrite B, B1. split.
      * intros [[X|(-> & r & I & J)]|(u & r & I & J & K & G)].
        -- left. exact X.
        -- right. exists t, r. repeat split; [left; reflexivity|exact E|exact I|exact J].
        -- right. exists u, r. repeat split; [right; exact I|exact J|exact K|exact G].
      * intros [X|(u & r & [<-|I] & J & K & G)].
        -- left. left. exact X.
        -- left. right. split; [congruence|]. exists r. split; assumption.
        -- right. exists u, r. repeat split; assumption.
Qed.

(** ** The traversal *)
Section Dfs.
  Variable derived : nat -> list nat.
  Definition edge (b d : nat) : Prop := In d (derived b).
  Definition desc : nat -> nat -> Prop := clos_refl_trans nat edge.
  Variable height : nat -> nat.
  Hypothesis heightOk : forall b d, edge b d -> height d < height b.

  Definition good (H : list nat) (i : nat) (p : nat * nat) : Prop :=
    exists pre seg post, H = pre ++ (i :: seg) ++ post /\ fst p = length pre /\ snd p = length pre + length (i :: seg) /\
      (forall x, In x (i :: seg) <-> desc i x) /\ ~ In i seg.
  Lemma good_app H H' i p : good H i p -> good (H ++ H') i p.
  Proof.
    intros (pre & seg & post & -> & A & B & C & D). exists pre, seg, (post ++ H').
    split; [rewrite !app_assoc; reflexivity|]. auto.
  Qed.
  Lemma desc_height b d : desc b d -> b = d \/ height d < height b.
  Proof.
    intros X. apply clos_rt_rt1n_iff in X. induction X as [|b c d E X IH]; [left; reflexivity|].
    right. apply heightOk in E. destruct IH as [->|IH]; lia.
  Qed.
  Lemma desc_inv b x : desc b x -> b = x \/ exists d, In d (derived b) /\ desc d x.
  Proof.
    intros X. apply clos_rt_rt1n_iff in X. destruct X as [|c d E X]; [left; reflexivity|].
    right. exists c. split; [exact E|]. apply clos_rt_rt1n_iff. exact X.
  Qed.

  (** from any state, entering [i] comes back to the rest of the list, having
      appended the descendants of [i] and set their ranges *)
  Definition after (s s' : dfs) (P : nat -> Prop) (seg : list nat) : Prop :=
    Linear s' = Linear s ++ seg /\ (forall x, In x seg <-> P x) /\
    (forall i, Seen s' i = false) /\
    (forall x, P x -> good (Linear s') x (Index s' x)) /\
    (forall x, ~ P x -> Index s' x = Index s x).
  Definition enters (i : nat) : Prop := forall wl s, (forall j, Seen s j = false) ->
    exists n s' seg, (forall fuel, visit (n + fuel) derived (Enter i :: wl) s = visit fuel derived wl s') /\ after s s' (desc i) seg.

  Lemma desc_dec_seg (P : nat -> Prop) seg (x : nat) : (forall x, In x seg <-> P x) -> {P x} + {~ P x}.
  Proof. intros E. destruct (in_dec Nat.eq_dec x seg) as [I|I]; [left|right]; rewrite <- E; exact I. Qed.

  Lemma enters_all l : (forall d, In d l -> enters d) -> forall wl s, (forall j, Seen s j = false) ->
    exists n s' seg, (forall fuel, visit (n + fuel) derived (map Enter l ++ wl) s = visit fuel derived wl s') /\
      after s s' (fun x => exists d, In d l /\ desc d x) seg.
  Proof.
    induction l as [|d l IH]; intros E wl s S0.
    - exists 0, s, []. split; [reflexivity|]. split; [rewrite app_nil_r; reflexivity|]. split; [|split; [exact S0|split]].
      + intros x. split; [intros []|intros (d & [] & _)].
      + intros x (d & [] & _).
      + reflexivity.
    - destruct (E d (or_introl eq_refl) (map Enter l ++ wl) s S0) as (n1 & s1 & seg1 & R1 & L1 & P1 & S1 & G1 & U1).
      destruct (IH (fun x I => E x (or_intror I)) wl s1 S1) as (n2 & s2 & seg2 & R2 & L2 & P2 & S2 & G2 & U2).
      exists (n1 + n2), s2, (seg1 ++ seg2). split; [|split; [|split; [|split; [exact S2|split]]]].
      + intros fuel. cbn [map app]. rewrite <- Nat.add_assoc, R1. apply R2.
      + rewrite L2, L1, app_assoc. reflexivity.
      + intros x. rewrite in_app_iff, P1, P2. split.
        * intros [X|(d' & I & X)]; [exists d; split; [left; reflexivity|exact X]|exists d'; split; [right; exact I|exact X]].
        * intros (d' & [<-|I] & X); [left; exact X|right; exists d'; split; assumption].
      + intros x (d' & I & X). destruct (desc_dec_seg _ seg2 x P2) as [Y|Y]; [apply G2, Y|].
        rewrite (U2 x Y), L2. apply good_app, G1. destruct I as [<-|I]; [exact X|].
        exfalso. apply Y. exists d'. split; assumption.
      + intros x X. rewrite U2, U1; [reflexivity| |].
        * intros Y. apply X. exists d. split; [left; reflexivity|exact Y].
        * intros (d' & I & Y). apply X. exists d'. split; [right; exact I|exact Y].
  Qed.

  Lemma enters_any i : enters i.
  Proof.
    remember (height i) as h eqn:Hh. revert i Hh. induction h as [h IH] using lt_wf_ind. intros i -> wl s S0.
    assert (E : forall d, In d (rev (derived i)) -> enters d).
    { intros d I. apply in_rev in I. eapply IH; [apply (heightOk i d I)|reflexivity]. }
    set (s1 := mkD (Seen s) (upd (Index s) i (length (Linear s), snd (Index s i))) (Linear s ++ [i])).
    destruct (enters_all (rev (derived i)) E (Leave i :: wl) s1 S0) as (n & s2 & seg & R & L2 & P & S2 & G & U).
    set (s3 := mkD (Seen s2) (upd (Index s2) i (fst (Index s2 i), length (Linear s2))) (Linear s2)).
    assert (Ni : ~ exists d, In d (rev (derived i)) /\ desc d i).
    { intros (d & I & X). apply in_rev in I. pose proof (heightOk i d I). destruct (desc_height d i X) as [->|]; lia. }
    exists (S n + 1), s3, (i :: seg).
    split; [|split; [|split; [|split; [exact S2|split]]]].
    - intros fuel. cbn [Nat.add visit]. rewrite S0. cbn [negb].
      rewrite <- map_rev. fold s1. rewrite <- Nat.add_assoc, R. cbn [Nat.add visit]. reflexivity.
    - cbn [s3 Linear]. rewrite L2. cbn [s1 Linear]. rewrite <- app_assoc. reflexivity.
    - intros x. cbn [In]. rewrite P. split.
      + intros [<-|(d & I & X)]; [apply rt_refl|]. apply in_rev in I. eapply rt_trans; [apply rt_step, I|exact X].
      + intros X. destruct (desc_inv i x X) as [->|(d & I & Y)]; [left; reflexivity|].
        right. exists d. split; [apply -> in_rev; exact I|exact Y].
    - intros x X. cbn [s3 Linear Index]. destruct (Nat.eq_dec x i) as [->|Y].
      + rewrite upd_same, (U i Ni). cbn [s1 Index]. rewrite upd_same. cbn [fst].
        exists (Linear s), seg, []. rewrite L2. cbn [s1 Linear fst snd].
        split; [rewrite app_nil_r, <- app_assoc; reflexivity|]. split; [reflexivity|]. split; [rewrite !app_length; cbn; lia|]. split.
        * intros y. cbn [In]. rewrite P. split.
          -- intros [<-|(d & I & Z)]; [apply rt_refl|]. apply in_rev in I. eapply rt_trans; [apply rt_step, I|exact Z].
          -- intros Z. destruct (desc_inv i y Z) as [->|(d & I & W)]; [left; reflexivity|].
             right. exists d. split; [apply -> in_rev; exact I|exact W].
        * rewrite P. exact Ni.
      + rewrite upd_other by exact Y. apply G. destruct (desc_inv i x X) as [Z|(d & I & Z)]; [congruence|].
        exists d. split; [apply -> in_rev; exact I|exact Z].
    - intros x X. cbn [s3 Index]. assert (Y : x <> i) by (intros ->; apply X, rt_refl).
      rewrite upd_other by exact Y. rewrite U; [cbn [s1 Index]; apply upd_other, Y|].
      intros (d & I & Z). apply X. apply in_rev in I. eapply rt_trans; [apply rt_step, I|exact Z].
  Qed.

  Lemma visit_more fuel k wl s r : visit fuel derived wl s = Some r -> visit (fuel + k) derived wl s = Some r.
  Proof.
    revert wl s. induction fuel as [|fuel IH]; intros wl s V; [discriminate|]. cbn [Nat.add visit] in *.
    destruct wl as [|[i|i] wl]; [exact V|apply IH, V|apply IH, V].
  Qed.
  Lemma visit_root i s : (forall j, Seen s j = false) -> exists n s' seg, after s s' (desc i) seg /\
    (forall fuel, n < fuel -> visit fuel derived [Enter i] s = Some s') /\
    (forall fuel r, visit fuel derived [Enter i] s = Some r -> r = s').
  Proof.
    intros S0. destruct (enters_any i [] s S0) as (n & s' & seg & R & A). exists n, s', seg. split; [exact A|]. split.
    - intros fuel L. replace fuel with (n + S (fuel - n - 1)) by lia. rewrite R. reflexivity.
    - intros fuel r V. apply (visit_more fuel (S n)) in V.
      replace (fuel + S n) with (n + S fuel) in V by lia. rewrite R in V. cbn in V. congruence.
  Qed.
  (** the loop over the roots *)
  Definition rootLoop (roots : nat -> bool) (fuel : nat) (l : list nat) (s : option dfs) : option dfs :=
    fold_left (fun acc r => match acc with
                            | None => None
                            | Some s => if roots r then visit fuel derived [Enter r] s else Some s
                            end) l s.
  Lemma rootLoop_none roots fuel l : rootLoop roots fuel l None = None.
  Proof. induction l; [reflexivity|assumption]. Qed.
  Lemma rootLoop_ok roots l s : (forall j, Seen s j = false) -> exists n s' seg,
    after s s' (fun x => exists r, In r l /\ roots r = true /\ desc r x) seg /\
    (forall fuel, n < fuel -> rootLoop roots fuel l (Some s) = Some s') /\
    (forall fuel r, rootLoop roots fuel l (Some s) = Some r -> r = s').
  Proof.
    revert s. induction l as [|r l IH]; intros s S0.
    - exists 0, s, []. split; [|split; [reflexivity|intros fuel r; cbn; congruence]].
      split; [rewrite app_nil_r; reflexivity|]. split; [|split; [exact S0|split; [|reflexivity]]].
      + intros x. split; [intros []|intros (d & [] & _)].
      + intros x (d & [] & _).
    - destruct (roots r) eqn:Er.
      + destruct (visit_root r s S0) as (n1 & s1 & seg1 & (L1 & P1 & S1 & G1 & U1) & V1 & W1).
        destruct (IH s1 S1) as (n2 & s2 & seg2 & (L2 & P2 & S2 & G2 & U2) & V2 & W2).
        exists (n1 + n2), s2, (seg1 ++ seg2). split; [split; [|split; [|split; [exact S2|split]]]|split].
        * rewrite L2, L1, app_assoc. reflexivity.
        * intros x. rewrite in_app_iff, P1, P2. split.
          -- intros [X|(d' & I & X)]; [exists r; split; [left; reflexivity|split; assumption]|exists d'; split; [right; exact I|exact X]].
          -- intros (d' & [<-|I] & X); [left; apply X|right; exists d'; split; assumption].
        * intros x (d' & I & Rd & X). destruct (desc_dec_seg _ seg2 x P2) as [Y|Y]; [apply G2, Y|].
          rewrite (U2 x Y), L2. apply good_app, G1. destruct I as [<-|I]; [exact X|].
          exfalso. apply Y. exists d'. repeat split; assumption.
        * intros x X. rewrite U2, U1; [reflexivity| |].
          -- intros Y. apply X. exists r. repeat split; [left; reflexivity|exact Er|exact Y].
          -- intros (d' & I & Y). apply X. exists d'. split; [right; exact I|exact Y].
        * intros fuel Lf. unfold rootLoop. cbn [fold_left]. rewrite Er, V1 by lia. apply V2. lia.
        * intros fuel q Q. unfold rootLoop in Q. cbn [fold_left] in Q. rewrite Er in Q.
          destruct (visit fuel derived [Enter r] s) as [s1'|] eqn:E.
          -- apply W1 in E. subst s1'. apply (W2 fuel), Q.
          -- change (rootLoop roots fuel l None = Some q) in Q. rewrite rootLoop_none in Q. discriminate.
      + destruct (IH s S0) as (n2 & s2 & seg2 & (L2 & P2 & S2 & G2 & U2) & V2 & W2).
        assert (Q : forall x, (exists r0, In r0 (r :: l) /\ roots r0 = true /\ desc r0 x) <-> (exists r0, In r0 l /\ roots r0 = true /\ desc r0 x)).
        { intros x. split; intros (r0 & I & J & K); exists r0; (split; [|split; assumption]); [destruct I as [<-|I]; [congruence|exact I]|right; exact I]. }
        exists n2, s2, seg2. split; [split; [exact L2|split; [|split; [exact S2|split]]]|split].
        * intros x. rewrite P2, Q. reflexivity.
        * intros x X. apply G2, Q, X.
        * intros x X. apply U2. rewrite <- Q. exact X.
        * intros fuel Lf. unfold rootLoop. cbn [fold_left]. rewrite Er. apply V2, Lf.
        * intros fuel q X. unfold rootLoop in X. cbn [fold_left] in X. rewrite Er in X. apply (W2 fuel), X.
  Qed.
End Dfs.
