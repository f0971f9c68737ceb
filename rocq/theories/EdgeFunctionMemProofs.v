(** Proofs about the memory management of EdgeFunctions. *)
From Coq Require Import List Bool Arith NArith Lia Permutation.
From Verif Require Import Assoc EdgeFunctionMemModel EdgeFunctionMemSpec.
Import ListNotations.

(** ** Lists and maps *)

Definition cnt (a : nat) (l : list handle) : nat := length (filter (refersTo a) l).
Lemma cnt_app a l l' : cnt a (l ++ l') = cnt a l + cnt a l'.
Proof. unfold cnt. now rewrite filter_app, app_length. Qed.
Lemma cnt_cons a h l : cnt a (h :: l) = (if refersTo a h then 1 else 0) + cnt a l.
Proof. unfold cnt. cbn. destruct (refersTo a h); reflexivity. Qed.
Lemma cnt_perm a l l' : Permutation l l' -> cnt a l = cnt a l'.
Proof.
  induction 1; rewrite ?cnt_cons; try lia. 
Qed.
Lemma cnt_pos a l : cnt a l > 0 <-> exists ty c, In (HHeap ty c a) l.
Proof.
  induction l as [|h l IH]; [cbn; split; [lia | intros (? & ? & [])]|].
  rewrite cnt_cons. split.
  - intros P. destruct h as [| |ty c b]; cbn in P; try (destruct (proj1 IH P) as (ty' & c' & I); exists ty', c'; now right).
    destruct (Nat.eqb a b) eqn:E.
    + apply Nat.eqb_eq in E. subst b. exists ty, c. now left.
    + destruct (proj1 IH P) as (ty' & c' & I); exists ty', c'; now right.
  - intros (ty & c & [-> | I]).
    + cbn. rewrite Nat.eqb_refl. lia.
    + assert (cnt a l > 0) by (apply IH; eauto). lia.
Qed.

Definition kidsOf (hp : list (nat * obj)) : list handle := flat_map (fun e => oKids (snd e)) hp.
Lemma kidsOf_aset_same a o o' hp : afind a hp = Some o -> oKids o' = oKids o -> kidsOf (aset a o' hp) = kidsOf hp.
Proof.
  intros F K. induction hp as [|[b p] hp IH]; cbn in *; [discriminate|].
  destruct (eq_dec a b); cbn.
  - injection F as ->. unfold kidsOf in *. cbn. now rewrite K.
  - unfold kidsOf in *. cbn. now rewrite IH.
Qed.
Lemma kidsOf_aset_new a o hp : afind a hp = None -> kidsOf (aset a o hp) = kidsOf hp ++ oKids o.
Proof.
  intros F. induction hp as [|[b p] hp IH]; cbn in *; [now rewrite app_nil_r|].
  destruct (eq_dec a b); cbn; [discriminate|]. unfold kidsOf in *. cbn. now rewrite IH, app_assoc.
Qed.
Lemma kidsOf_adel a o hp : afind a hp = Some o -> Permutation (kidsOf hp) (oKids o ++ kidsOf (adel a hp)).
Proof.
  intros F. induction hp as [|[b p] hp IH]; cbn in *; [discriminate|].
  destruct (eq_dec a b); cbn.
  - injection F as ->. reflexivity.
  - unfold kidsOf in *. cbn. rewrite (IH F). rewrite !app_assoc. apply Permutation_app_tail, Permutation_app_comm.
Qed.
Lemma in_kidsOf hp h : NoDup (akeys hp) -> (In h (kidsOf hp) <-> exists a o, afind a hp = Some o /\ In h (oKids o)).
Proof.
  intros N. unfold kidsOf. rewrite in_flat_map. split.
  - intros ([a o] & I & J). exists a, o. split; [now apply In_afind|exact J].
  - intros (a & o & F & J). exists (a, o). split; [now apply afind_In|exact J].
Qed.
Lemma handlesIn_kidsOf st : handlesIn st = length (kidsOf (heap st)).
Proof.
  unfold handlesIn, kidsOf. assert (forall hp n, fold_left (fun n e => n + length (oKids (snd e))) hp n = n + length (flat_map (fun e : nat * obj => oKids (snd e)) hp)) as G.
  { induction hp as [|e hp IH]; intros n; cbn; [lia|]. rewrite IH, app_length. lia. }
  apply G.
Qed.

Lemma slots_aset_new (s : nat) (h : handle) l : afind s l = None -> map snd (aset s h l) = map snd l ++ [h].
Proof.
  intros F. induction l as [|[b p] l IH]; cbn in *; auto.
  destruct (eq_dec s b); cbn; [discriminate|]. now rewrite IH.
Qed.
Lemma slots_aset_old (s : nat) (h old : handle) l : afind s l = Some old -> Permutation (old :: map snd (aset s h l)) (h :: map snd l).
Proof.
  intros F. induction l as [|[b p] l IH]; cbn in *; [discriminate|].
  destruct (eq_dec s b); cbn.
  - injection F as ->. apply perm_swap.
  - rewrite (perm_swap p old), (IH F). apply perm_swap.
Qed.
Lemma slots_adel (s : nat) (old : handle) l : afind s l = Some old -> Permutation (old :: map snd (adel s l)) (map snd l).
Proof.
  intros F. induction l as [|[b p] l IH]; cbn in *; [discriminate|].
  destruct (eq_dec s b); cbn.
  - injection F as ->. reflexivity.
  - now rewrite (perm_swap p old), (IH F).
Qed.
Lemma afind_in_snd {V} (s : nat) (h : V) l : afind s l = Some h -> In h (map snd l).
Proof. intros F. apply afind_In in F. now apply (in_map snd) in F. Qed.

Lemma mapM_spec {A B} (f : A -> option B) l r : mapM f l = Some r <-> Forall2 (fun x y => f x = Some y) l r.
Proof.
  revert r. induction l as [|x l IH]; intros r; cbn; split; intros E.
  - injection E as <-. constructor.
  - inversion E. reflexivity.
  - destruct (f x) eqn:F; [|discriminate]. destruct (mapM f l) eqn:G; [|discriminate]. injection E as <-.
    constructor; auto. now apply IH.
  - inversion E; subst. rewrite H1. now rewrite (proj2 (IH l') H3).
Qed.
Lemma mapM_total {A B} (f : A -> option B) l : (forall x, In x l -> exists y, f x = Some y) -> exists r, mapM f l = Some r.
Proof.
  induction l as [|x l IH]; intros T; cbn; [now exists []|].
  destruct (T x) as (y & ->); [now left|]. destruct IH as (r & ->); [intros z I; apply T; now right|]. now exists (y :: r).
Qed.
Lemma mapM_ext_some {A B} (f g : A -> option B) l r :
  (forall x y, In x l -> f x = Some y -> g x = Some y) -> mapM f l = Some r -> mapM g l = Some r.
Proof.
  revert r. induction l as [|x l IH]; intros r E M; cbn in *; auto.
  destruct (f x) eqn:F; [|discriminate]. destruct (mapM f l) eqn:G; [|discriminate]. injection M as <-.
  rewrite (E x b (or_introl eq_refl) F). erewrite IH; eauto.
Qed.

(** ** Reading *)

Definition sameShape (o o' : obj) : Prop := oTy o' = oTy o /\ oData o' = oData o /\ oKids o' = oKids o /\ oCache o' = oCache o.
Definition sub (hp hp' : list (nat * obj)) : Prop := forall a o, afind a hp = Some o -> exists o', afind a hp' = Some o' /\ sameShape o o'.
Lemma sub_refl hp : sub hp hp.
Proof. intros a o F. exists o. repeat split; auto. Qed.
Lemma sub_trans h1 h2 h3 : sub h1 h2 -> sub h2 h3 -> sub h1 h3.
Proof.
  intros A B a o F. destruct (A a o F) as (o2 & F2 & a1 & a2 & a3 & a4). destruct (B a o2 F2) as (o3 & F3 & b1 & b2 & b3 & b4).
  exists o3. split; [exact F3|]. repeat split; congruence.
Qed.
Lemma sub_aset a o o' hp : afind a hp = Some o -> sameShape o o' -> sub hp (aset a o' hp).
Proof.
  intros F S b p G. rewrite afind_aset. destruct (eq_dec b a) as [->|].
  - exists o'. split; auto. congruence.
  - exists p. repeat split; auto.
Qed.
Lemma sub_aset_rev a o o' hp : afind a hp = Some o -> sameShape o o' -> sub (aset a o' hp) hp.
Proof.
  intros F (s1 & s2 & s3 & s4) b p G. rewrite afind_aset in G. destruct (eq_dec b a) as [->|].
  - injection G as <-. exists o. split; auto. repeat split; congruence.
  - exists p. repeat split; auto.
Qed.
Lemma sub_aset_new a o hp : afind a hp = None -> sub hp (aset a o hp).
Proof.
  intros F b p G. rewrite afind_aset. destruct (eq_dec b a) as [->|]; [congruence|]. exists p. repeat split; auto.
Qed.
Lemma sub_adel a hp : NoDup (akeys hp) -> sub (adel a hp) hp.
Proof.
  intros N b p G. rewrite afind_adel in G; auto. destruct (eq_dec b a); [discriminate|]. exists p. repeat split; auto.
Qed.

Lemma readH_sub k hp hp' h t : sub hp hp' -> readH k hp h = Some t -> readH k hp' h = Some t.
Proof.
  intros S. revert h t. induction k as [|k IH]; intros h t R; destruct h as [|ty d p|ty c a]; cbn in *; auto.
  destruct (afind a hp) as [o|] eqn:F; [|discriminate].
  destruct (S a o F) as (o' & F' & e1 & e2 & e3 & e4). rewrite F', e1, e2, e3.
  destruct (mapM (readH k hp) (oKids o)) as [ts|] eqn:M; [|discriminate].
  rewrite (mapM_ext_some _ (readH k hp') _ _ (fun x y _ Q => IH x y Q) M). exact R.
Qed.
Lemma readH_more k k' hp h t : k <= k' -> readH k hp h = Some t -> readH k' hp h = Some t.
Proof.
  revert k' h t. induction k as [|k IH]; intros k' h t Le R; destruct h as [|ty d p|ty c a]; try (destruct k'; cbn in *; assumption).
  - discriminate R.
  - destruct k' as [|k']; [lia|]. cbn in *. destruct (afind a hp) as [o|]; [|discriminate].
    destruct (mapM (readH k hp) (oKids o)) as [ts|] eqn:M; [|discriminate].
    rewrite (mapM_ext_some _ (readH k' hp) _ _ (fun x y _ Q => IH k' x y (le_S_n _ _ Le) Q) M). exact R.
Qed.
Lemma readH_det k k' hp h t t' : readH k hp h = Some t -> readH k' hp h = Some t' -> t = t'.
Proof.
  intros A B. apply (readH_more k (k + k')) in A; [|lia]. apply (readH_more k' (k + k')) in B; [|lia]. congruence.
Qed.
Lemma readH_handle k hp ty c ty' c' a : readH k hp (HHeap ty c a) = readH k hp (HHeap ty' c' a).
Proof. destruct k; reflexivity. Qed.

(** ** The invariant *)

Definition isSome {A} (x : option A) : bool := match x with Some _ => true | None => false end.
Definition addrOf (h : handle) : option nat := match h with HHeap _ _ a => Some a | _ => None end.

Section P.
  Variable small : nat -> bool.
  Variable teq : tree -> tree -> bool.
  Variable byValue : nat -> bool.
  Variable cacheTy : nat -> nat.
  Hypothesis teq_refl : forall t, teq t t = true.
  Hypothesis teq_sym : forall t t', teq t t' = teq t' t.

  Definition hok (hp : list (nat * obj)) (h : handle) : Prop :=
    match h with
    | HNull => True
    | HSmall ty _ _ => small ty = true
    | HHeap ty c a => exists o, afind a hp = Some o /\ oTy o = ty /\ isSome (oCache o) = c
    end.
  Definition entries (c : nat) (st : state) : list nat := afindd [] c (caches st).
  Definition everything' (ex : list handle) (st : state) : list handle := ex ++ map snd (slots st) ++ kidsOf (heap st).

  Record Inv (ex : list handle) (st : state) : Prop := mkInv {
    I_nd : NoDup (akeys (heap st));
    I_nds : NoDup (akeys (slots st));
    I_rc : forall a o, afind a (heap st) = Some o -> oRc o = cnt a (everything' ex st) /\ oRc o > 0;
    I_ok : forall h, In h (everything' ex st) -> hok (heap st) h;
    I_ord : forall a o h b, afind a (heap st) = Some o -> In h (oKids o) -> addrOf h = Some b -> b < a;
    I_fresh : forall a o, afind a (heap st) = Some o -> a < fresh st;
    I_big : forall a o, afind a (heap st) = Some o -> small (oTy o) = false;
    I_cty : forall a o c, afind a (heap st) = Some o -> oCache o = Some c -> cacheTy c = oTy o;
    I_cin : forall c b, In b (entries c st) <-> exists o, afind b (heap st) = Some o /\ oCache o = Some c;
    I_cdist : forall c b b' k k' t t' ty q, In b (entries c st) -> In b' (entries c st) -> b <> b' ->
      readH k (heap st) (HHeap ty q b) = Some t -> readH k' (heap st) (HHeap ty q b') = Some t' -> teq t t' = false }.

  Lemma inv_init : Inv [] init.
  Proof. constructor; cbn; try constructor; try discriminate; try contradiction. 
    all: try (intros; exfalso; assumption). 
    - intros (o & F & _). discriminate.
  Qed.

  Lemma inv_readable ex st h : Inv ex st -> hok (heap st) h -> forall k, (forall a, addrOf h = Some a -> a < k) -> exists t, readH k (heap st) h = Some t.
  Proof.
    intros I H k. revert h H. induction k as [|k IH]; intros h H B; destruct h as [|ty d p|ty c a]; try (cbn; eauto; fail).
    - specialize (B a eq_refl). lia.
    - specialize (B a eq_refl). destruct H as (o & F & T & C). cbn. rewrite F.
      destruct (mapM_total (readH k (heap st)) (oKids o)) as (ts & ->); [|eauto].
      intros x X. apply IH.
      + apply (I_ok _ _ I). unfold everything'. rewrite !in_app_iff. right; right. apply in_kidsOf; [apply (I_nd _ _ I)|eauto].
      + intros b E. pose proof (I_ord _ _ I a o x b F X E). lia.
  Qed.
  Lemma inv_read ex st h : Inv ex st -> hok (heap st) h -> exists t, read st h = Some t.
  Proof.
    intros I H. unfold read, depthBound. apply (inv_readable ex); auto. intros a E. destruct h as [| |ty c b]; try discriminate. injection E as ->.
    destruct H as (o & F & _). pose proof (I_fresh _ _ I a o F). lia.
  Qed.
  Lemma inv_read_kids ex st a o : Inv ex st -> afind a (heap st) = Some o -> exists ts, mapM (read st) (oKids o) = Some ts.
  Proof.
    intros I F. apply mapM_total. intros x X. apply (inv_read ex); auto. apply (I_ok _ _ I). unfold everything'. rewrite !in_app_iff. right; right.
    apply in_kidsOf; [apply (I_nd _ _ I)|eauto].
  Qed.
  (** the value of an object, as [keyEq] reads it *)
  Lemma read_node st a o ts ty c : afind a (heap st) = Some o -> mapM (read st) (oKids o) = Some ts ->
    readH (S (depthBound st)) (heap st) (HHeap ty c a) = Some (TNode (oTy o) (oData o) ts).
  Proof.
    intros F M. assert (mapM (readH (depthBound st) (heap st)) (oKids o) = Some ts) as M' by exact M.
    cbn -[depthBound]. now rewrite F, M'.
  Qed.

  (** ** The invariant is about the set of EdgeFunctions only *)
  Lemma inv_perm ex ex' st st' : heap st' = heap st -> caches st' = caches st -> fresh st' = fresh st -> NoDup (akeys (slots st')) ->
    Permutation (ex ++ map snd (slots st)) (ex' ++ map snd (slots st')) -> Inv ex st -> Inv ex' st'.
  Proof.
    intros Eh Ec Ef N P I.
    assert (Permutation (everything' ex st) (everything' ex' st')) as P'.
    { unfold everything'. rewrite Eh, !app_assoc. now apply Permutation_app_tail. }
    unfold entries in *. destruct I as [i1 i2 i3 i4 i5 i6 i7 i8 i9 i10]. unfold entries in *.
    constructor; unfold entries; rewrite ?Eh, ?Ec, ?Ef; auto.
    - intros a o F. rewrite <- (cnt_perm a _ _ P'). auto.
    - intros h H. apply i4. revert H. apply Permutation_in. now symmetry.
  Qed.

  (** ** Copies *)
  Definition withHeap (st : state) (hp : list (nat * obj)) : state := mkState hp (caches st) (slots st) (fresh st).

  (** a change of reference counts *)
  Lemma inv_rc ex ex' st a o o' : afind a (heap st) = Some o -> sameShape o o' ->
    oRc o' = cnt a (everything' ex' st) -> oRc o' > 0 ->
    (forall b, b <> a -> cnt b ex' = cnt b ex) -> (forall h, In h ex' -> In h ex \/ hok (heap st) h) ->
    Inv ex st -> Inv ex' (withHeap st (aset a o' (heap st))).
  Proof.
    intros F S R R0 C O I. pose proof S as (s1 & s2 & s3 & s4).
    assert (forall h, hok (heap st) h -> hok (aset a o' (heap st)) h) as Hok.
    { intros [|ty d p|ty c b] H; cbn in *; auto. destruct H as (p & G & T & Q). rewrite afind_aset. destruct (eq_dec b a) as [->|].
      - exists o'. assert (p = o) by congruence. subst p. split; auto. split; congruence.
      - eauto. }
    assert (forall b p, afind b (aset a o' (heap st)) = Some p -> exists q, afind b (heap st) = Some q /\ sameShape p q) as Back.
    { exact (sub_aset_rev a o o' (heap st) F S). }
    assert (forall k h t, readH k (aset a o' (heap st)) h = Some t -> readH k (heap st) h = Some t) as RB.
    { intros k h t. apply readH_sub. now apply (sub_aset_rev a o o'). }
    unfold everything' in *.
    destruct I as [i1 i2 i3 i4 i5 i6 i7 i8 i9 i10]. unfold entries in *.
    assert (kidsOf (aset a o' (heap st)) = kidsOf (heap st)) as K by now apply (kidsOf_aset_same a o).
    constructor; unfold entries, everything' in *; cbn [heap slots caches fresh withHeap]; rewrite ?K; auto.
    - now apply NoDup_aset.
    - intros b p G. rewrite afind_aset in G. destruct (eq_dec b a) as [->|N].
      + injection G as <-. split; auto.
      + destruct (i3 b p G) as [i3a i3b]. split; auto. rewrite i3a, !cnt_app. rewrite (C b N). lia.
    - intros h H. apply Hok. rewrite in_app_iff in H. destruct H as [H|H].
      + destruct (O h H) as [H'|H']; auto. apply i4. rewrite in_app_iff. now left.
      + apply i4. rewrite in_app_iff. now right.
    - intros b p h d G X E. destruct (Back b p G) as (q & G' & _ & _ & q3 & _). rewrite <- q3 in X. eauto.
    - intros b p G. destruct (Back b p G) as (q & G' & _). eauto.
    - intros b p G. destruct (Back b p G) as (q & G' & q1 & _). rewrite <- q1. eauto.
    - intros b p c G E. destruct (Back b p G) as (q & G' & q1 & _ & _ & q4). rewrite <- q1. apply (i8 b q); congruence.
    - intros c b. rewrite i9. split.
      + intros (p & G & E). rewrite afind_aset. destruct (eq_dec b a) as [->|]; [exists o'; split; auto; congruence | eauto].
      + intros (p & G & E). destruct (Back b p G) as (q & G' & _ & _ & _ & q4). exists q. split; congruence.
    - intros c b b' k k' t t' ty q B B' N R1 R2. apply (i10 c b b' k k' t t' ty q); auto.
  Qed.

  Lemma inv_incr ex st h : Inv ex st -> hok (heap st) h ->
    exists hp, incr h (heap st) = Some hp /\ Inv (h :: ex) (withHeap st hp) /\ sub (heap st) hp /\ (forall h', hok (heap st) h' -> hok hp h').
  Proof.
    intros I H. destruct h as [|ty d p|ty c a].
    - exists (heap st). split; [reflexivity|]. split; [|split; [apply sub_refl | auto]].
      destruct I as [i1 i2 i3 i4 i5 i6 i7 i8 i9 i10]. constructor; auto.
      intros h [<- | X]; [exact Logic.I | apply i4; exact X].
    - exists (heap st). split; [reflexivity|]. split; [|split; [apply sub_refl | auto]].
      destruct I as [i1 i2 i3 i4 i5 i6 i7 i8 i9 i10]. constructor; auto.
      intros h [<- | X]; [exact H | apply i4; exact X].
    - destruct H as (o & F & T & C). cbn. rewrite F. eexists. split; [reflexivity|].
      set (o' := mkObj (oTy o) (oData o) (oKids o) (S (oRc o)) (oCache o)).
      assert (sameShape o o') as S by (repeat split).
      split; [|split; [now apply (sub_aset a o)|]].
      + apply (inv_rc ex (HHeap ty c a :: ex) st a o o'); auto.
        * cbn [oRc o']. rewrite (proj1 (I_rc _ _ I a o F)). unfold everything'. cbn [app]. rewrite cnt_cons. cbn. rewrite Nat.eqb_refl. reflexivity.
        * cbn. lia.
        * intros b N. rewrite cnt_cons. cbn. apply Nat.eqb_neq in N. now rewrite N.
        * intros h [<- | X]; [right; cbn; eauto | now left].
      + intros [|ty' d' p'|ty' c' b] H'; cbn in *; auto. destruct H' as (p & G & T' & Q). rewrite afind_aset. destruct (eq_dec b a) as [->|].
        * exists o'. assert (p = o) by congruence. subst p. split; auto.
        * eauto.
  Qed.

  Lemma hok_sub hp hp' h : sub hp hp' -> hok hp h -> hok hp' h.
  Proof.
    intros S. destruct h as [|ty d p|ty c a]; cbn; auto. intros (o & F & T & C). destruct (S a o F) as (o' & F' & e1 & _ & _ & e4).
    exists o'. split; auto. split; congruence.
  Qed.

  Lemma inv_incrAll ex st hs : Inv ex st -> Forall (hok (heap st)) hs ->
    exists hp, incrAll hs (heap st) = Some hp /\ Inv (hs ++ ex) (withHeap st hp) /\ sub (heap st) hp.
  Proof.
    intros I H. revert ex st I H. induction hs as [|h hs IH]; intros ex st I H; cbn.
    - exists (heap st). split; auto. split; [destruct st; exact I | apply sub_refl].
    - inversion H; subst. destruct (inv_incr ex st h I H2) as (hp & E & I' & S & O). rewrite E.
      destruct (IH (h :: ex) (withHeap st hp)) as (hp' & E' & I'' & S'); auto.
      { eapply Forall_impl; [|exact H3]. intros x. apply O. }
      exists hp'. split; auto. split; [|now apply (sub_trans _ hp)].
      revert I''. apply inv_perm; auto; [exact (I_nds _ _ I) |]. cbn. rewrite <- !app_assoc. cbn. symmetry. apply Permutation_middle.
  Qed.

  (** ** The lookup in a cache *)
  Lemma findKey_none st a v l : findKey teq st a v l = Some None ->
    forall b, In b l -> exists o ts, afind b (heap st) = Some o /\ mapM (read st) (oKids o) = Some ts /\ teq v (TNode (oTy o) (oData o) ts) = false.
  Proof.
    induction l as [|x l IH]; intros E b I; [destruct I|]. cbn in E. destruct I as [-> | I].
    - unfold keyEq in E. destruct (eqb a (Some b)); [discriminate|]. destruct (afind b (heap st)) as [o|]; [|discriminate].
      destruct (mapM (read st) (oKids o)) as [ts|] eqn:M; [|discriminate]. exists o, ts. split; auto. split; auto.
      destruct (teq v _); [discriminate | reflexivity].
    - destruct (keyEq teq st a v x) as [[|]|]; try discriminate. auto.
  Qed.
  Lemma findKey_some st a v l b : findKey teq st a v l = Some (Some b) ->
    In b l /\ (a = Some b \/ exists o ts, afind b (heap st) = Some o /\ mapM (read st) (oKids o) = Some ts /\ teq v (TNode (oTy o) (oData o) ts) = true).
  Proof.
    induction l as [|x l IH]; intros E; cbn in E; [discriminate|].
    destruct (keyEq teq st a v x) as [[|]|] eqn:K; try discriminate.
    - injection E as ->. split; [now left|]. unfold keyEq in K. destruct (eqb a (Some b)) eqn:Q; [left; now apply eqb_eq in Q|].
      right. destruct (afind b (heap st)) as [o|]; [|discriminate].
      destruct (mapM (read st) (oKids o)) as [ts|] eqn:M; [|discriminate]. exists o, ts. split; auto. split; auto. congruence.
    - destruct (IH E) as [I Q]. split; [now right | exact Q].
  Qed.
  Lemma findKey_total st a v l :
    (forall b, In b l -> exists o ts, afind b (heap st) = Some o /\ mapM (read st) (oKids o) = Some ts) -> exists r, findKey teq st a v l = Some r.
  Proof.
    induction l as [|x l IH]; intros T; cbn; [eauto|].
    unfold keyEq. destruct (eqb a (Some x)); [eauto|]. destruct (T x) as (o & ts & -> & ->); [now left|].
    destruct (teq v _); [eauto|]. apply IH. intros b I. apply T. now right.
  Qed.
  Lemma inv_entry ex st c b : Inv ex st -> In b (entries c st) ->
    exists o ts, afind b (heap st) = Some o /\ oCache o = Some c /\ mapM (read st) (oKids o) = Some ts.
  Proof.
    intros I H. destruct (proj1 (I_cin _ _ I c b) H) as (o & F & C). destruct (inv_read_kids ex st b o I F) as (ts & M). eauto.
  Qed.

  Lemma findKey_self ex st a o c ts key : Inv ex st -> afind a (heap st) = Some o -> oCache o = Some c -> mapM (read st) (oKids o) = Some ts ->
    key = None \/ key = Some a -> findKey teq st key (TNode (oTy o) (oData o) ts) (entries c st) = Some (Some a).
  Proof.
    intros I F C M K.
    assert (In a (entries c st)) as Ia by (apply (I_cin _ _ I); eauto).
    destruct (findKey_total st key (TNode (oTy o) (oData o) ts) (entries c st)) as (r & E).
    { intros b B. destruct (inv_entry ex st c b I B) as (p & tp & F' & _ & M'). eauto. }
    rewrite E. f_equal. destruct r as [b|].
    - destruct (findKey_some _ _ _ _ _ E) as (Ib & [Q | (p & tp & F' & M' & Q)]); [destruct K; congruence|].
      destruct (Nat.eq_dec a b) as [->|N]; auto.
      pose proof (I_cdist _ _ I c a b _ _ _ _ 0 false Ia Ib N (read_node st a o ts 0 false F M) (read_node st b p tp 0 false F' M')). congruence.
    - destruct (findKey_none _ _ _ _ E a Ia) as (p & tp & F' & M' & Q). assert (p = o) by congruence. subst p.
      assert (tp = ts) by congruence. subst tp. rewrite teq_refl in Q. discriminate.
  Qed.

  (** ** Destruction *)

  Lemma sameShape_rc o n : sameShape o (mkObj (oTy o) (oData o) (oKids o) n (oCache o)).
  Proof. repeat split. Qed.

  (** reading does not see reference counts *)
  Lemma read_rc st a o n h : afind a (heap st) = Some o ->
    read (withHeap st (aset a (mkObj (oTy o) (oData o) (oKids o) n (oCache o)) (heap st))) h = read st h.
  Proof.
    intros F. unfold read, depthBound. cbn [fresh heap withHeap].
    destruct (readH (S (fresh st)) (heap st) h) eqn:E.
    - revert E. apply readH_sub. apply (sub_aset a o); auto using sameShape_rc.
    - destruct (readH _ (aset _ _ _) h) eqn:E'; auto. exfalso.
      apply (readH_sub _ _ (heap st)) in E'; [congruence|]. apply (sub_aset_rev a o); auto using sameShape_rc.
  Qed.
  Lemma mapM_ext {A B} (f g : A -> option B) l : (forall x, f x = g x) -> mapM f l = mapM g l.
  Proof. intros E. induction l as [|x l IH]; cbn; auto. now rewrite E, IH. Qed.
  Lemma findKey_rc st a o n key v l : afind a (heap st) = Some o ->
    findKey teq (withHeap st (aset a (mkObj (oTy o) (oData o) (oKids o) n (oCache o)) (heap st))) key v l = findKey teq st key v l.
  Proof.
    intros F. induction l as [|b l IH]; cbn [findKey]; auto. rewrite IH.
    assert (forall X Y, X = Y -> match X with Some true => Some (Some b) | Some false => findKey teq st key v l | None => None end
      = match Y with Some true => Some (Some b) | Some false => findKey teq st key v l | None => None end) as Q by (intros X Y ->; reflexivity).
    apply Q. unfold keyEq. destruct (eqb key (Some b)); auto. cbn [heap withHeap]. rewrite afind_aset. destruct (eq_dec b a) as [->|].
    - rewrite F. cbn. now rewrite (mapM_ext _ (read st)) by (intros; now apply read_rc).
    - destruct (afind b (heap st)) as [p|]; auto. now rewrite (mapM_ext _ (read st)) by (intros; now apply read_rc).
  Qed.

  (** deletion of an object no EdgeFunction refers to any more *)
  Lemma inv_delete ex st h ty c a o st1 : h = HHeap ty c a -> Inv (h :: ex) st -> afind a (heap st) = Some o -> oRc o = 1 ->
    heap st1 = heap st -> slots st1 = slots st -> fresh st1 = fresh st ->
    (forall c' b, In b (entries c' st1) <-> In b (entries c' st) /\ ~ (b = a)) ->
    Inv (oKids o ++ ex) (mkState (adel a (heap st1)) (caches st1) (slots st1) (fresh st1)).
  Proof.
    intros -> I F R Eh Es Ef Ec. rewrite Eh, Es, Ef.
    pose proof (kidsOf_adel a o (heap st) F) as PK.
    assert (Permutation (everything' (HHeap ty c a :: ex) st)
      (HHeap ty c a :: everything' (oKids o ++ ex) (mkState (adel a (heap st)) (caches st1) (slots st) (fresh st)))) as P.
    { unfold everything'. cbn [app heap slots]. constructor. rewrite PK.
      transitivity (ex ++ oKids o ++ map snd (slots st) ++ kidsOf (adel a (heap st))).
      - apply Permutation_app_head. rewrite !app_assoc. apply Permutation_app_tail, Permutation_app_comm.
      - rewrite !app_assoc. apply Permutation_app_tail, Permutation_app_tail, Permutation_app_comm. }
    pose proof (proj1 (I_rc _ _ I a o F)) as C. rewrite R, (cnt_perm a _ _ P), cnt_cons in C. cbn [refersTo] in C. rewrite Nat.eqb_refl in C.
    assert (cnt a (everything' (oKids o ++ ex) (mkState (adel a (heap st)) (caches st1) (slots st) (fresh st))) = 0) as Z by lia.
    assert (forall b p, afind b (adel a (heap st)) = Some p -> b <> a /\ afind b (heap st) = Some p) as Back.
    { intros b p G. rewrite afind_adel in G by apply (I_nd _ _ I). destruct (eq_dec b a); [discriminate|auto]. }
    assert (forall k h t, readH k (adel a (heap st)) h = Some t -> readH k (heap st) h = Some t) as RB.
    { intros k h t. apply readH_sub, sub_adel. apply (I_nd _ _ I). }
    destruct I as [i1 i2 i3 i4 i5 i6 i7 i8 i9 i10].
    constructor; cbn [heap slots caches fresh]; auto.
    - now apply NoDup_adel.
    - intros b p G. destruct (Back b p G) as [N G']. destruct (i3 b p G') as [j1 j2]. split; auto.
      rewrite j1, (cnt_perm b _ _ P), cnt_cons. cbn [refersTo]. apply Nat.eqb_neq in N. now rewrite N.
    - intros h H. assert (hok (heap st) h) as O.
      { apply i4. apply (Permutation_in _ (Permutation_sym P)). now right. }
      destruct h as [|ty' d' p'|ty' c' b]; cbn in *; auto. destruct O as (p & G & T & Q). exists p. split; auto.
      rewrite afind_adel_neq; auto. intros ->. assert (cnt a (everything' (oKids o ++ ex) (mkState (adel a (heap st)) (caches st1) (slots st) (fresh st))) > 0); [|lia].
      apply cnt_pos. eauto.
    - intros b p h d G X E. destruct (Back b p G) as [N G']. eauto.
    - intros b p G. destruct (Back b p G) as [N G']. eauto.
    - intros b p G. destruct (Back b p G) as [N G']. eauto.
    - intros b p c' G E. destruct (Back b p G) as [N G']. eauto.
    - intros c' b. unfold entries at 1. cbn [caches]. change (afindd [] c' (caches st1)) with (entries c' st1). rewrite Ec, i9. split.
      + intros ((p & G & E) & N). exists p. split; auto. rewrite afind_adel_neq; auto.
      + intros (p & G & E). destruct (Back b p G) as [N G']. eauto.
    - intros c' b b' k k' t t' ty' q B B' N R1 R2. unfold entries in B, B'. cbn [caches] in B, B'.
      change (afindd [] c' (caches st1)) with (entries c' st1) in B, B'. apply Ec in B, B'. apply (i10 c' b b' k k' t t' ty' q); auto; tauto.
  Qed.

  Lemma inv_releaseAll n : forall todo ex st, Inv (todo ++ ex) st -> length todo + length (kidsOf (heap st)) <= n ->
    exists st', releaseAll teq byValue n todo st = Some st' /\ Inv ex st' /\ slots st' = slots st /\ fresh st' = fresh st /\ sub (heap st') (heap st).
  Proof.
    induction n as [|n IH]; intros todo ex st I Le.
    - destruct todo; [|cbn in Le; lia]. exists st. split; [reflexivity|]. split; [exact I|]. split; auto. split; auto. apply sub_refl.
    - destruct todo as [|h todo].
      { exists st. split; [reflexivity|]. split; [exact I|]. split; auto. split; auto. apply sub_refl. }
      cbn [app length] in *.
      assert (hok (heap st) h) as H by (apply (I_ok _ _ I); now left).
      assert (forall st0, h = HNull \/ (exists ty d p, h = HSmall ty d p) -> st0 = st -> Inv (todo ++ ex) st0) as Skip.
      { intros st0 Hh ->. destruct I as [i1 i2 i3 i4 i5 i6 i7 i8 i9 i10]. constructor; auto.
        - intros a o F. destruct (i3 a o F) as [j1 j2]. split; auto. rewrite j1. unfold everything'. cbn [app]. rewrite cnt_cons.
          destruct Hh as [-> | (ty & d & p & ->)]; reflexivity.
        - intros h' X. apply i4. now right. }
      destruct h as [|ty d p|ty cached a].
      + cbn. apply IH; [apply Skip; auto | lia].
      + cbn. apply IH; [apply Skip; eauto | lia].
      + destruct H as (o & F & T & Q). cbn [releaseAll]. rewrite F. pose proof (I_rc _ _ I a o F) as [R R0].
        destruct (oRc o) as [|[|m]] eqn:Erc; [lia| |].
        * (* the last reference *)
          set (hp0 := aset a (mkObj (oTy o) (oData o) (oKids o) 0 (oCache o)) (heap st)).
          assert (NoDup (akeys hp0)) as Nd0 by (apply NoDup_aset, (I_nd _ _ I)).
          assert (adel a hp0 = adel a (heap st)) as Del.
          { clear. subst hp0. induction (heap st) as [|[b q] l IHl]; cbn.
            - destruct (eq_dec a a); congruence.
            - destruct (eq_dec a b) as [->|N]; cbn; [destruct (eq_dec b b); congruence|]. destruct (eq_dec a b); [congruence|]. now rewrite IHl. }
          assert (exists st1, (if cached then cacheErase teq byValue (mkState hp0 (caches st) (slots st) (fresh st)) a o
             else Some (mkState hp0 (caches st) (slots st) (fresh st))) = Some st1 /\ heap st1 = hp0 /\ slots st1 = slots st /\ fresh st1 = fresh st /\
             (forall c' b, In b (entries c' st1) <-> In b (entries c' st) /\ ~ (b = a))) as (st1 & E1 & Eh & Es & Ef & Ec).
          { destruct cached.
            - destruct (oCache o) as [c|] eqn:Co; [|discriminate]. unfold cacheErase. rewrite Co.
              destruct (inv_read_kids _ st a o I F) as (ts & M).
              pose proof (mapM_ext _ _ (oKids o) (fun h => read_rc st a o 0 h F)) as MM. rewrite Co in MM.
              change (mkState hp0 (caches st) (slots st) (fresh st)) with (withHeap st hp0). subst hp0. rewrite MM, M. cbn [caches withHeap].
              pose proof (findKey_rc st a o 0 (if byValue (oTy o) then None else Some a) (TNode (oTy o) (oData o) ts) (afindd [] c (caches st)) F) as FR.
              rewrite Co in FR. rewrite FR.
              rewrite (findKey_self _ st a o c ts _ I F Co M) by (destruct (byValue (oTy o)); auto).
              eexists. split; [reflexivity|]. cbn [heap slots fresh withHeap]. split; auto. split; auto. split; auto.
              intros c' b. unfold entries. cbn [caches]. unfold afindd at 1. rewrite afind_aset. destruct (eq_dec c' c) as [->|N].
              + split.
                * intros B. apply in_remove in B. tauto.
                * intros [B N]. apply in_in_remove; auto.
              + unfold afindd. split; [|tauto]. intros B. split; auto. intros ->. apply N.
                destruct (proj1 (I_cin _ _ I c' a) B) as (p & F' & C'). congruence.
            - eexists. split; [reflexivity|]. cbn. split; auto. split; auto. split; auto. intros c' b. unfold entries. cbn. split; [|tauto].
              intros B. split; auto. intros ->. destruct (proj1 (I_cin _ _ I c' a) B) as (p & F' & C'). assert (p = o) by congruence. subst p. rewrite C' in Q. discriminate. }
          rewrite E1.
          pose proof (inv_delete (todo ++ ex) st _ ty cached a o (mkState (heap st) (caches st1) (slots st) (fresh st)) eq_refl I F Erc eq_refl eq_refl eq_refl Ec) as I2.
          cbn [heap caches slots fresh] in I2. rewrite Eh, Es, Ef, Del.
          rewrite app_assoc in I2.
          destruct (IH (oKids o ++ todo) ex _ I2) as (st' & E' & I' & S1 & S2 & S3).
          { cbn [heap]. pose proof (Permutation_length (kidsOf_adel a o (heap st) F)) as PL. rewrite app_length in *. lia. }
          exists st'. split; auto. split; auto. cbn in S1, S2, S3. split; auto. split; auto.
          apply (sub_trans _ _ _ S3). apply sub_adel. apply (I_nd _ _ I).
        * set (o' := mkObj (oTy o) (oData o) (oKids o) (S m) (oCache o)).
          assert (Inv (todo ++ ex) (withHeap st (aset a o' (heap st)))) as I2.
          { apply (inv_rc (HHeap ty cached a :: todo ++ ex) (todo ++ ex) st a o o'); auto.
            - apply sameShape_rc.
            - unfold everything' in R. cbn [app] in R. rewrite cnt_cons in R. cbn [refersTo] in R. rewrite Nat.eqb_refl in R. cbn [oRc o']. unfold everything'. lia.
            - cbn. lia.
            - intros b N. rewrite cnt_cons. cbn [refersTo]. apply Nat.eqb_neq in N. now rewrite N.
            - intros h X. left. now right. }
          destruct (IH todo ex _ I2) as (st' & E' & I' & S1 & S2 & S3).
          { cbn [heap withHeap]. rewrite (kidsOf_aset_same a o) by auto. lia. }
          exists st'. split; auto. split; auto. cbn in S1, S2, S3. split; auto. split; auto.
          apply (sub_trans _ _ _ S3). apply (sub_aset_rev a o); [exact F | apply sameShape_rc].
  Qed.
  Lemma inv_release hs ex st : Inv (hs ++ ex) st ->
    exists st', release teq byValue hs st = Some st' /\ Inv ex st' /\ slots st' = slots st /\ fresh st' = fresh st /\ sub (heap st') (heap st).
  Proof. intros I. unfold release. rewrite handlesIn_kidsOf. now apply inv_releaseAll. Qed.

  (** ** Construction *)
  Lemma inv_alloc ex st ty data kids c st' : Inv (kids ++ ex) st -> small ty = false ->
    heap st' = aset (fresh st) (mkObj ty data kids 1 c) (heap st) -> slots st' = slots st -> fresh st' = S (fresh st) ->
    (forall c' b, In b (entries c' st') <-> In b (entries c' st) \/ (b = fresh st /\ c = Some c')) ->
    (forall c', c = Some c' -> cacheTy c' = ty) ->
    (forall c' b k k' t t' ty q, c = Some c' -> In b (entries c' st) -> readH k (heap st') (HHeap ty q (fresh st)) = Some t ->
       readH k' (heap st') (HHeap ty q b) = Some t' -> teq t t' = false) ->
    Inv (HHeap ty (isSome c) (fresh st) :: ex) st' /\ sub (heap st) (heap st').
  Proof.
    intros I Sm Eh Es Ef Ec Ct Di.
    assert (afind (fresh st) (heap st) = None) as F0.
    { destruct (afind (fresh st) (heap st)) eqn:F; auto. pose proof (I_fresh _ _ I _ _ F). lia. }
    assert (sub (heap st) (heap st')) as Sub by (rewrite Eh; now apply sub_aset_new).
    split; auto.
    assert (Permutation (everything' (kids ++ ex) st ++ [HHeap ty (isSome c) (fresh st)]) (everything' (HHeap ty (isSome c) (fresh st) :: ex) st')) as P.
    { unfold everything'. rewrite Eh, Es, kidsOf_aset_new by auto. cbn [oKids]. rewrite Permutation_app_comm. cbn [app]. constructor.
      rewrite <- app_assoc. rewrite Permutation_app_comm. rewrite <- !app_assoc. reflexivity. }
    assert (forall h, In h (everything' (kids ++ ex) st) -> forall b, addrOf h = Some b -> b < fresh st) as Lt.
    { intros h H b E. pose proof (I_ok _ _ I h H) as O. destruct h; try discriminate. injection E as ->. destruct O as (o & F & _). exact (I_fresh _ _ I b o F). }
    assert (cnt (fresh st) (everything' (kids ++ ex) st) = 0) as Z.
    { destruct (cnt (fresh st) (everything' (kids ++ ex) st)) eqn:E; auto. destruct (proj1 (cnt_pos (fresh st) (everything' (kids ++ ex) st))) as (ty' & c' & H); [lia|].
      pose proof (Lt _ H _ eq_refl). lia. }
    assert (forall b o, afind b (heap st') = Some o -> (b = fresh st /\ o = mkObj ty data kids 1 c) \/ (b <> fresh st /\ afind b (heap st) = Some o)) as Back.
    { intros b o G. rewrite Eh, afind_aset in G. destruct (eq_dec b (fresh st)); [injection G as <-|]; auto. }
    assert (forall k b t ty q, b <> fresh st -> In b (akeys (heap st)) -> readH k (heap st') (HHeap ty q b) = Some t -> exists k', readH k' (heap st) (HHeap ty q b) = Some t) as RB.
    { intros k b t ty' q N H R. destruct (afind b (heap st)) as [o|] eqn:F.
      - destruct (inv_readable (kids ++ ex) st (HHeap (oTy o) (isSome (oCache o)) b) I) with (k := S b) as (t' & R').
        + cbn. eauto.
        + intros x [= ->]. lia.
        + exists (S b). rewrite (readH_handle _ _ ty' q (oTy o) (isSome (oCache o))). rewrite R'. f_equal.
          apply (readH_sub _ _ _ _ _ Sub) in R'. rewrite (readH_handle _ _ _ _ ty' q) in R'. eapply readH_det; eauto.
      - apply afind_None in F. contradiction. }
    destruct I as [i1 i2 i3 i4 i5 i6 i7 i8 i9 i10].
    constructor.
    - rewrite Eh. now apply NoDup_aset.
    - now rewrite Es.
    - intros b o G. destruct (Back b o G) as [[-> ->] | [N G']]; cbn [oRc].
      + rewrite <- (cnt_perm _ _ _ P), cnt_app, Z. cbn. rewrite Nat.eqb_refl. cbn. lia.
      + destruct (i3 b o G') as [j1 j2]. split; auto. rewrite j1, <- (cnt_perm _ _ _ P), cnt_app. cbn [cnt filter refersTo]. unfold cnt at 3. cbn [filter refersTo].
        apply Nat.eqb_neq in N. rewrite N. cbn. lia.
    - intros h H. apply (Permutation_in _ (Permutation_sym P)) in H. apply in_app_iff in H. destruct H as [H | [<- | []]].
      + apply (hok_sub (heap st)); auto.
      + cbn. rewrite Eh, afind_aset_eq. eauto.
    - intros b o h d G X E. destruct (Back b o G) as [[-> ->] | [N G']]; eauto.
      cbn in X. apply (Lt h); auto. unfold everything'. rewrite !in_app_iff. auto.
    - intros b o G. rewrite Ef. destruct (Back b o G) as [[-> ->] | [N G']]; [lia|]. pose proof (i6 b o G'). lia.
    - intros b o G. destruct (Back b o G) as [[-> ->] | [N G']]; eauto.
    - intros b o c' G E. destruct (Back b o G) as [[-> ->] | [N G']]; cbn in *; eauto.
    - intros c' b. rewrite Ec, i9. split.
      + intros [(o & G & E) | [-> E]].
        * destruct (Sub b o G) as (o' & G' & _ & _ & _ & e4). exists o'. split; congruence.
        * rewrite Eh, afind_aset_eq. eauto.
      + intros (o & G & E). destruct (Back b o G) as [[-> ->] | [N G']]; cbn in *; eauto.
    - intros c' b b' k k' t t' ty' q B B' N R1 R2. apply Ec in B, B'.
      assert (forall x, In x (entries c' st) -> x <> fresh st /\ In x (akeys (heap st))) as Q.
      { intros x X. destruct (proj1 (i9 c' x) X) as (o & G & _). split; [|eapply afind_Some_key; eauto]. pose proof (i6 x o G). lia. }
      destruct B as [B | [-> E]], B' as [B' | [-> E']].
      + destruct (Q b B) as [q1 q2], (Q b' B') as [q3 q4]. destruct (RB _ _ _ _ _ q1 q2 R1) as (k1 & R1'). destruct (RB _ _ _ _ _ q3 q4 R2) as (k2 & R2').
        apply (i10 c' b b' k1 k2 t t' ty' q); auto.
      + rewrite teq_sym. apply (Di c' b k' k t' t ty' q); auto.
      + apply (Di c' b' k k' t t' ty' q); auto.
      + congruence.
  Qed.

  (** ** Values *)

  (** what two states have in common: a heap both are part of *)
  Definition compat (st st' : state) : Prop := exists hm, sub (heap st) hm /\ sub (heap st') hm.
  Lemma read_compat ex ex' st st' h : Inv ex st -> Inv ex' st' -> compat st st' -> hok (heap st) h -> hok (heap st') h -> read st' h = read st h.
  Proof.
    intros I I' (hm & S & S') H H'. destruct (inv_read ex st h I H) as (t & R). destruct (inv_read ex' st' h I' H') as (t' & R'). rewrite R, R'. f_equal.
    unfold read in R, R'. apply (readH_sub _ _ _ _ _ S) in R. apply (readH_sub _ _ _ _ _ S') in R'. eapply readH_det; eauto.
  Qed.
  Lemma slot_ok ex st s h : Inv ex st -> afind s (slots st) = Some h -> hok (heap st) h.
  Proof. intros I F. apply (I_ok _ _ I). unfold everything'. rewrite !in_app_iff. right; left. eapply afind_in_snd; eauto. Qed.

  Lemma compat_sub st st' : sub (heap st) (heap st') -> compat st st'.
  Proof. intros S. exists (heap st'). split; auto using sub_refl. Qed.
  Lemma compat_sub' st st' : sub (heap st') (heap st) -> compat st st'.
  Proof. intros S. exists (heap st). split; auto using sub_refl. Qed.

  Lemma free_dead s st : free s st = true <-> afind s (slots st) = None.
  Proof. unfold free. destruct (afind s (slots st)); split; congruence. Qed.

  Lemma inv_setSlot_new ex st s h : Inv (h :: ex) st -> afind s (slots st) = None -> Inv ex (setSlot s h st).
  Proof.
    intros I F. assert (NoDup (akeys (aset s h (slots st)))) as N by apply NoDup_aset, (I_nds _ _ I). revert I. apply inv_perm; auto.
    cbn [slots setSlot]. rewrite slots_aset_new by auto. cbn. rewrite app_assoc. apply Permutation_cons_append.
  Qed.
  Lemma inv_setSlot_old ex st s h old : Inv (h :: ex) st -> afind s (slots st) = Some old -> Inv (old :: ex) (setSlot s h st).
  Proof.
    intros I F. assert (NoDup (akeys (aset s h (slots st)))) as N by apply NoDup_aset, (I_nds _ _ I). revert I. apply inv_perm; auto.
    cbn [slots setSlot]. pose proof (slots_aset_old s h old (slots st) F) as P. cbn.
    transitivity (ex ++ h :: map snd (slots st)); [apply Permutation_middle|]. rewrite <- P. symmetry. apply Permutation_middle.
  Qed.
  Lemma inv_delSlot ex st s h : Inv ex st -> afind s (slots st) = Some h -> Inv (h :: ex) (mkState (heap st) (caches st) (adel s (slots st)) (fresh st)).
  Proof.
    intros I F. assert (NoDup (akeys (adel s (slots st)))) as N by apply NoDup_adel, (I_nds _ _ I). revert I. apply inv_perm; auto.
    cbn [slots]. pose proof (slots_adel s h (slots st) F) as P. rewrite <- P. cbn. symmetry. apply Permutation_middle.
  Qed.
  Lemma inv_extra ex st h : addrOf h = None -> hok (heap st) h -> Inv ex st -> Inv (h :: ex) st.
  Proof.
    intros A O [i1 i2 i3 i4 i5 i6 i7 i8 i9 i10]. constructor; auto.
    - intros a o F. destruct (i3 a o F) as [j1 j2]. split; auto. rewrite j1. unfold everything'. cbn [app]. rewrite cnt_cons.
      destruct h; try discriminate; reflexivity.
    - intros h' [<- | X]; [exact O | apply i4; exact X].
  Qed.

  (** values of slots *)
  Lemma val_from st st' k f : Inv [] st -> Inv [] st' -> compat st st' -> afind k (slots st') = afind f (slots st) -> valuesOf st' k = valuesOf st f.
  Proof.
    intros I I' C E. unfold valuesOf. rewrite E. destruct (afind f (slots st)) as [h|] eqn:F; auto.
    apply (read_compat [] []); auto; eapply slot_ok; eauto.
  Qed.
  Lemma val_null st k : afind k (slots st) = Some HNull -> valuesOf st k = Some TNull.
  Proof. intros E. unfold valuesOf. rewrite E. reflexivity. Qed.
  Lemma val_small st k ty d p : afind k (slots st) = Some (HSmall ty d p) -> valuesOf st k = Some (TSmall ty d).
  Proof. intros E. unfold valuesOf. rewrite E. reflexivity. Qed.
  Lemma val_read st k h hm n t : Inv [] st -> afind k (slots st) = Some h -> sub (heap st) hm -> readH n hm h = Some t -> valuesOf st k = Some t.
  Proof.
    intros I E S R. unfold valuesOf. rewrite E. destruct (inv_read [] st h I (slot_ok _ _ _ _ I E)) as (t' & R'). rewrite R'. f_equal.
    unfold read in R'. apply (readH_sub _ _ _ _ _ S) in R'. eapply readH_det; eauto.
  Qed.

  Lemma inv_copySlots ss st : Inv [] st -> (forall s, In s ss -> live s st) ->
    exists hs st1 ts, copySlots ss st = Some (hs, st1) /\ Inv (hs ++ []) st1 /\ slots st1 = slots st /\ caches st1 = caches st /\ fresh st1 = fresh st /\
      sub (heap st) (heap st1) /\ mapM (read st1) hs = Some ts /\ map (valuesOf st) ss = map Some ts.
  Proof.
    intros I L. unfold copySlots, slotHandles.
    destruct (mapM_total (fun s => afind s (slots st)) ss) as (hs & M).
    { intros s X. specialize (L s X). unfold live in L. destruct (afind s (slots st)) as [h|]; [eauto | congruence]. }
    rewrite M. apply mapM_spec in M.
    assert (Forall (hok (heap st)) hs) as O.
    { clear L. induction M; constructor; auto. eapply slot_ok; eauto. }
    destruct (inv_incrAll [] st hs I O) as (hp & E & I1 & S). rewrite E.
    assert (Forall (hok hp) hs) as O1 by (eapply Forall_impl; [intros x; apply hok_sub; exact S | exact O]).
    destruct (mapM_total (read (withHeap st hp)) hs) as (ts & MT).
    { intros h X. apply (inv_read (hs ++ [])); auto. rewrite Forall_forall in O1. apply O1. exact X. }
    exists hs, (withHeap st hp), ts. split; [reflexivity|]. repeat (split; [first [exact I1 | reflexivity | exact S | exact MT]|]).
    assert (forall h, In h hs -> read (withHeap st hp) h = read st h) as Q.
    { rewrite Forall_forall in O, O1. intros h X. apply (read_compat [] (hs ++ [])); auto. apply compat_sub. exact S. }
    apply mapM_spec in MT. clear E L I1 O O1. revert ts MT. induction M as [|s h ss hs F M IH]; intros ts MT; inversion MT; subst; cbn; auto.
    f_equal.
    - unfold valuesOf. rewrite F, <- Q by now left. assumption.
    - apply IH; auto. intros x X. apply Q. now right.
  Qed.

  Lemma small_kids ty (kids : list nat) : (small ty = true -> kids = []) -> small ty = true -> kids = [].
  Proof. auto. Qed.

  Lemma upd_case (v : values) s x k y : (k = s -> y = x) -> (k <> s -> y = v k) -> y = upd v s x k.
  Proof.
    intros A B. unfold upd. destruct (Nat.eqb k s) eqn:E; [apply A; now apply Nat.eqb_eq | apply B; now apply Nat.eqb_neq].
  Qed.

  Theorem step_correct o st : Inv [] st -> clientOk small cacheTy o st ->
    exists st', step small teq byValue cacheTy o st = Some st' /\ Inv [] st' /\ valueStep small teq o (valuesOf st) (valuesOf st').
  Proof.
    intros I K. destruct o as [s|s ty d kids|s ty d kids c g|s f|s f|s f|s f|s f|s|s t|s]; cbn [clientOk] in K; cbn [step].
    - (* Null *)
      rewrite (proj2 (free_dead s st) K). assert (Inv [] (setSlot s HNull st)) as I'.
      { apply inv_setSlot_new; auto. apply inv_extra; auto; exact Logic.I. }
      eexists. split; [reflexivity|]. split; auto. intros k. apply upd_case; intros N.
      + subst k. apply val_null. cbn. apply afind_aset_eq.
      + apply val_from; auto; [apply compat_sub, sub_refl|]. cbn. now apply afind_aset_neq.
    - (* Make *)
      destruct K as (D & Sm & L). rewrite (proj2 (free_dead s st) D). cbn [negb]. cbn [valueStep]. destruct (small ty) eqn:St.
      + rewrite (Sm eq_refl). assert (Inv [] (setSlot s (HSmall ty d 0) st)) as I'.
        { apply inv_setSlot_new; auto. apply inv_extra; auto. }
        eexists. split; [reflexivity|]. split; auto. exists []. split; [reflexivity|]. intros k. apply upd_case; intros N.
        * subst k. apply (val_small _ _ _ _ 0). cbn. apply afind_aset_eq.
        * apply val_from; auto; [apply compat_sub, sub_refl|]. cbn. now apply afind_aset_neq.
      + destruct (inv_copySlots kids st I L) as (hs & st1 & ts & E & I1 & Es & Ec & Ef & Sb & M & V). rewrite E.
        destruct (alloc ty d hs None st1) as [h st2] eqn:A.
        assert (h = HHeap ty false (fresh st1)) as Eh by (unfold alloc in A; congruence).
        assert (st2 = mkState (aset (fresh st1) (mkObj ty d hs 1 None) (heap st1)) (caches st1) (slots st1) (S (fresh st1))) as E2 by (unfold alloc in A; congruence).
        destruct (inv_alloc [] st1 ty d hs None st2 I1 St) as [I2 Sb2]; try (subst st2; reflexivity); try discriminate.
        { subst st2. intros c' b. unfold entries. cbn. split; [auto | intros [B | [_ [=]]]; exact B]. }
        cbn [isSome] in I2. rewrite <- Eh in I2.
        assert (slots st2 = slots st) as Es2 by (rewrite E2; cbn; exact Es).
        assert (Inv [] (setSlot s h st2)) as I'.
        { apply inv_setSlot_new; auto. now rewrite Es2. }
        eexists. split; [reflexivity|]. split; auto. exists ts. split; auto. intros k. apply upd_case; intros N.
        * subst k. apply (val_read _ s h (heap st2) (S (depthBound st2))); auto.
          -- cbn. apply afind_aset_eq.
          -- cbn. apply sub_refl.
          -- rewrite Eh. apply (readH_more (S (depthBound st1))).
             { rewrite E2. unfold depthBound. cbn. lia. }
             cbn -[depthBound]. rewrite E2 at 1. cbn [heap]. rewrite afind_aset_eq. cbn [oKids oTy oData].
             assert (mapM (readH (depthBound st1) (heap st1)) hs = Some ts) as M' by exact M.
             rewrite (mapM_ext_some _ (readH (depthBound st1) (heap st2)) _ _ (fun x y _ Q => readH_sub _ _ _ x y Sb2 Q) M'). reflexivity.
        * apply val_from; auto.
          -- apply compat_sub. cbn. apply (sub_trans _ _ _ Sb Sb2).
          -- cbn. rewrite afind_aset_neq by auto. now rewrite Es2.
    - (* MakeCached *)
      destruct K as (D & Ct & Sm & L). rewrite (proj2 (free_dead s st) D). cbn [negb]. rewrite (proj2 (eqb_true (cacheTy c) ty) Ct). cbn [negb]. cbn [valueStep].
      destruct (small ty) eqn:St.
      + rewrite (Sm eq_refl). assert (Inv [] (setSlot s (HSmall ty d g) st)) as I'.
        { apply inv_setSlot_new; auto. apply inv_extra; auto. }
        eexists. split; [reflexivity|]. split; auto. intros k. apply upd_case; intros N.
        * subst k. apply (val_small _ _ _ _ g). cbn. apply afind_aset_eq.
        * apply val_from; auto; [apply compat_sub, sub_refl|]. cbn. now apply afind_aset_neq.
      + destruct (inv_copySlots kids st I L) as (hs & st1 & ts & E & I1 & Es & Ec & Ef & Sb & M & V). rewrite E, M.
        assert (mapM (readH (depthBound st1) (heap st1)) hs = Some ts) as M' by exact M.
        change (afindd [] c (caches st1)) with (entries c st1).
        destruct (findKey_total st1 None (TNode ty d ts) (entries c st1)) as (r & FK).
        { intros b B. destruct (inv_entry _ st1 c b I1 B) as (p & tp & F' & _ & M2). eauto. }
        rewrite FK. destruct r as [b|].
        * destruct (findKey_some _ _ _ _ _ FK) as (B & [Q | (o & to & Fo & Mo & Q)]); [discriminate|].
          destruct (proj1 (I_cin _ _ I1 c b) B) as (o' & Fo' & Co'). assert (o' = o) by congruence. subst o'.
          pose proof (I_cty _ _ I1 b o c Fo Co') as Ty. rewrite Ct in Ty.
          assert (hok (heap st1) (HHeap ty true b)) as Ok by (exists o; rewrite Co'; auto).
          destruct (inv_incr (hs ++ []) st1 (HHeap ty true b) I1 Ok) as (hp & Eh & I2 & Sb2 & _). rewrite Eh.
          change (mkState hp (caches st1) (slots st1) (fresh st1)) with (withHeap st1 hp).
          assert (Inv (hs ++ []) (setSlot s (HHeap ty true b) (withHeap st1 hp))) as I3.
          { apply inv_setSlot_new; auto. cbn. now rewrite Es. }
          destruct (inv_release hs [] _ I3) as (st' & Er & I' & Es' & Ef' & Sb').
          rewrite Er. exists st'. split; [reflexivity|]. split; [exact I'|].
          exists ts, (TNode (oTy o) (oData o) to). split; [exact V|]. split; [right; exact Q|].
          intros k. apply upd_case; intros N.
          -- subst k. apply (val_read st' s (HHeap ty true b) hp (S (depthBound st1))); auto.
             ++ rewrite Es'. cbn. apply afind_aset_eq.
             ++ apply (readH_sub _ _ _ _ _ Sb2). now apply read_node.
          -- apply val_from; auto.
             ++ exists hp. split; [apply (sub_trans _ _ _ Sb Sb2) | exact Sb'].
             ++ rewrite Es'. cbn. rewrite afind_aset_neq by auto. now rewrite Es.
        * destruct (alloc ty d hs (Some c) st1) as [h st2] eqn:A.
          assert (h = HHeap ty true (fresh st1)) as Eh by (unfold alloc in A; congruence).
          assert (st2 = mkState (aset (fresh st1) (mkObj ty d hs 1 (Some c)) (heap st1)) (caches st1) (slots st1) (S (fresh st1))) as E2 by (unfold alloc in A; congruence).
          set (st3 := mkState (heap st2) (aset c (entries c st1 ++ [fresh st1]) (caches st2)) (slots st2) (fresh st2)).
          assert (readH (S (depthBound st1)) (heap st3) (HHeap ty true (fresh st1)) = Some (TNode ty d ts)) as Rn.
          { assert (sub (heap st1) (heap st3)) as Sx.
            { subst st3 st2. cbn. apply sub_aset_new. destruct (afind (fresh st1) (heap st1)) eqn:F; auto. pose proof (I_fresh _ _ I1 _ _ F). lia. }
            cbn -[depthBound st3]. subst st3 st2. cbn [heap]. rewrite afind_aset_eq. cbn [oKids oTy oData]. cbn [heap] in Sx.
            match goal with |- context [mapM ?g hs] => rewrite (mapM_ext_some (readH (depthBound st1) (heap st1)) g _ _ (fun x y _ Q => readH_sub _ _ _ x y Sx Q) M') end.
            reflexivity. }
          destruct (inv_alloc [] st1 ty d hs (Some c) st3 I1 St) as [I2 Sb2]; try (subst st3 st2; reflexivity).
          { subst st3 st2. intros c' b. unfold entries at 1. cbn [caches]. unfold afindd. rewrite afind_aset. destruct (eq_dec c' c) as [->|N].
            - rewrite in_app_iff. cbn. intuition.
            - change (match afind c' (caches st1) with Some v => v | None => [] end) with (entries c' st1). intuition congruence. }
          { intros c' [= <-]. exact Ct. }
          { intros c' b k k' t t' ty' q [= <-] B R1 R2.
            destruct (findKey_none _ _ _ _ FK b B) as (o & to & Fo & Mo & Q).
            rewrite (readH_handle _ _ ty' q ty true) in R1. pose proof (readH_det _ _ _ _ _ _ R1 Rn) as ->.
            assert (sub (heap st1) (heap st3)) as Sx.
            { subst st3 st2. cbn. apply sub_aset_new. destruct (afind (fresh st1) (heap st1)) eqn:F; auto. pose proof (I_fresh _ _ I1 _ _ F). lia. }
            pose proof (readH_sub _ _ _ _ _ Sx (read_node st1 b o to ty' q Fo Mo)) as R3. pose proof (readH_det _ _ _ _ _ _ R2 R3) as ->. exact Q. }
          cbn [isSome] in I2. rewrite <- Eh in I2.
          assert (slots st3 = slots st) as Es3 by (subst st3 st2; cbn; exact Es).
          assert (Inv [] (setSlot s h st3)) as I'.
          { apply inv_setSlot_new; auto. now rewrite Es3. }
          exists (setSlot s h st3). split; [reflexivity|]. split; [exact I'|].
          exists ts, (TNode ty d ts). split; auto. split; auto.
          intros k. apply upd_case; intros N.
          -- subst k. apply (val_read _ s h (heap st3) (S (depthBound st1))); auto.
             ++ cbn. apply afind_aset_eq.
             ++ apply sub_refl.
             ++ rewrite Eh. exact Rn.
          -- apply val_from; auto.
             ++ apply compat_sub. apply (sub_trans _ _ _ Sb Sb2).
             ++ cbn [slots setSlot]. rewrite afind_aset_neq by auto. now rewrite Es3.
    - (* Copy *)
      destruct K as [D L]. rewrite (proj2 (free_dead s st) D). unfold live in L. destruct (afind f (slots st)) as [h|] eqn:F; [|congruence].
      destruct (inv_incr [] st h I (slot_ok _ _ _ _ I F)) as (hp & E & I1 & Sb & _). rewrite E.
      assert (Inv [] (setSlot s h (withHeap st hp))) as I' by (apply inv_setSlot_new; auto).
      eexists. split; [reflexivity|]. split; [exact I'|]. intros k. apply upd_case; intros N; apply val_from; auto; try (apply compat_sub; exact Sb).
      + subst k. cbn. now rewrite afind_aset_eq.
      + cbn. now rewrite afind_aset_neq.
    - (* FromRef *)
      destruct K as (D & L & Nn). rewrite (proj2 (free_dead s st) D). unfold live in L. destruct (afind f (slots st)) as [h|] eqn:F; [|congruence].
      destruct (inv_incr [] st h I (slot_ok _ _ _ _ I F)) as (hp & E & I1 & Sb & _).
      assert (Inv [] (setSlot s h (withHeap st hp))) as I' by (apply inv_setSlot_new; auto).
      assert (valueStep small teq (FromRef s f) (valuesOf st) (valuesOf (setSlot s h (withHeap st hp)))) as V.
      { intros k. apply upd_case; intros N; apply val_from; auto; try (apply compat_sub; exact Sb).
        - subst k. cbn. now rewrite afind_aset_eq.
        - cbn. now rewrite afind_aset_neq. }
      destruct h as [|ty d p|ty c a]; [congruence| |].
      + exists (setSlot s (HSmall ty d p) st). split; [reflexivity|]. injection E as <-. destruct st; split; assumption.
      + rewrite E. eexists. split; [reflexivity|]. split; assumption.
    - (* Move *)
      destruct K as [D L]. rewrite (proj2 (free_dead s st) D). unfold live in L. destruct (afind f (slots st)) as [h|] eqn:F; [|congruence].
      assert (s <> f) as Nsf by congruence.
      assert (Inv [h] (setSlot f HNull st)) as I1.
      { apply inv_setSlot_old; auto. apply inv_extra; auto; exact Logic.I. }
      assert (Inv [] (setSlot s h (setSlot f HNull st))) as I'.
      { apply inv_setSlot_new; auto. cbn. rewrite afind_aset_neq; auto. }
      eexists. split; [reflexivity|]. split; [exact I'|]. intros k. apply upd_case; intros N.
      + subst k. apply val_from; auto; [apply compat_sub, sub_refl|]. cbn. now rewrite afind_aset_eq.
      + apply upd_case; intros N'.
        * subst k. apply val_null. cbn. rewrite afind_aset_neq by auto. apply afind_aset_eq.
        * apply val_from; auto; [apply compat_sub, sub_refl|]. cbn. now rewrite !afind_aset_neq.
    - (* Assign *)
      destruct K as [L L']. unfold live in L, L'. destruct (afind f (slots st)) as [h|] eqn:F; [|congruence].
      destruct (afind s (slots st)) as [old|] eqn:Fs; [|congruence].
      destruct (inv_incr [] st h I (slot_ok _ _ _ _ I F)) as (hp & E & I1 & Sb & _). rewrite E. unfold overwrite. cbn [slots]. rewrite Fs.
      pose proof (inv_setSlot_old [] (withHeap st hp) s h old I1 Fs) as I2.
      destruct (inv_release [old] [] _ I2) as (st' & Er & I' & Es' & Ef' & Sb'). change (mkState hp (caches st) (slots st) (fresh st)) with (withHeap st hp). rewrite Er.
      exists st'. split; [reflexivity|]. split; [exact I'|]. cbn in Es'.
      assert (compat st st') as C by (exists hp; split; [exact Sb | exact Sb']).
      intros k. apply upd_case; intros N; apply val_from; auto; rewrite Es'.
      + subst k. now rewrite afind_aset_eq.
      + now rewrite afind_aset_neq.
    - (* MoveAssign *)
      destruct K as [L L']. unfold live in L, L'. destruct (afind f (slots st)) as [h|] eqn:F; [|congruence].
      destruct (afind s (slots st)) as [old|] eqn:Fs; [|congruence].
      assert (Inv [h] (setSlot f HNull st)) as I1.
      { apply inv_setSlot_old; auto. apply inv_extra; auto; exact Logic.I. }
      unfold overwrite. destruct (afind s (slots (setSlot f HNull st))) as [old'|] eqn:Fs'.
      2:{ cbn in Fs'. rewrite afind_aset in Fs'. destruct (eq_dec s f); congruence. }
      pose proof (inv_setSlot_old [] _ s h old' I1 Fs') as I2.
      destruct (inv_release [old'] [] _ I2) as (st' & Er & I' & Es' & Ef' & Sb'). rewrite Er.
      exists st'. split; [reflexivity|]. split; [exact I'|]. cbn in Es', Sb'.
      assert (compat st st') as C by (apply compat_sub'; exact Sb').
      intros k. apply upd_case; intros N.
      + subst k. apply val_from; auto. rewrite Es'. now rewrite afind_aset_eq.
      + apply upd_case; intros N'.
        * subst k. apply val_null. rewrite Es', afind_aset_neq by auto. apply afind_aset_eq.
        * apply val_from; auto. rewrite Es'. now rewrite !afind_aset_neq.
    - (* AssignNull *)
      unfold live in K. unfold overwrite. destruct (afind s (slots st)) as [old|] eqn:Fs; [|congruence].
      assert (Inv [old] (setSlot s HNull st)) as I1.
      { apply inv_setSlot_old; auto. apply inv_extra; auto; exact Logic.I. }
      destruct (inv_release [old] [] _ I1) as (st' & Er & I' & Es' & Ef' & Sb'). rewrite Er.
      exists st'. split; [reflexivity|]. split; [exact I'|]. cbn in Es', Sb'.
      assert (compat st st') as C by (apply compat_sub'; exact Sb').
      intros k. apply upd_case; intros N.
      + subst k. apply val_null. rewrite Es'. apply afind_aset_eq.
      + apply val_from; auto. rewrite Es'. now rewrite afind_aset_neq.
    - (* Swap *)
      destruct K as [L L']. unfold live in L, L'. destruct (afind s (slots st)) as [h|] eqn:Fs; [|congruence].
      destruct (afind t (slots st)) as [h'|] eqn:Ft; [|congruence].
      assert (afind t (aset s h' (slots st)) = Some h') as Ft' by (rewrite afind_aset; destruct (eq_dec t s); auto).
      assert (Inv [] (setSlot t h (setSlot s h' st))) as I'.
      { assert (NoDup (akeys (aset t h (aset s h' (slots st))))) as Nd by apply NoDup_aset, NoDup_aset, (I_nds _ _ I).
        revert I. apply inv_perm; auto.
        cbn. pose proof (slots_aset_old s h' h (slots st) Fs) as P1. pose proof (slots_aset_old t h h' _ Ft') as P2. rewrite P1 in P2.
          apply Permutation_cons_inv in P2. now symmetry. }
      eexists. split; [reflexivity|]. split; [exact I'|]. intros k. apply upd_case; intros N.
      + subst k. apply val_from; auto; [apply compat_sub, sub_refl|]. cbn. now rewrite afind_aset_eq.
      + apply upd_case; intros N'.
        * subst k. apply val_from; auto; [apply compat_sub, sub_refl|]. cbn. rewrite afind_aset_neq by auto. now rewrite afind_aset_eq.
        * apply val_from; auto; [apply compat_sub, sub_refl|]. cbn. now rewrite !afind_aset_neq.
    - (* Destroy *)
      unfold live in K. destruct (afind s (slots st)) as [h|] eqn:Fs; [|congruence].
      pose proof (inv_delSlot [] st s h I Fs) as I1.
      destruct (inv_release [h] [] _ I1) as (st' & Er & I' & Es' & Ef' & Sb'). rewrite Er.
      exists st'. split; [reflexivity|]. split; [exact I'|]. cbn in Es', Sb'.
      assert (compat st st') as C by (apply compat_sub'; exact Sb').
      intros k. apply upd_case; intros N.
      + subst k. unfold valuesOf. rewrite Es', afind_adel_eq; [reflexivity | apply (I_nds _ _ I)].
      + apply val_from; auto. rewrite Es'. now rewrite afind_adel_neq.
  Qed.

  Lemma step_client o st st' : step small teq byValue cacheTy o st = Some st' -> clientOk small cacheTy o st.
  Proof.
    assert (forall ss (P : list handle * state -> option state) (x : state), match copySlots ss st with Some q => P q | None => None end = Some x -> forall k, In k ss -> live k st) as CS.
    { intros ss P x. unfold copySlots, slotHandles. destruct (mapM (fun s => afind s (slots st)) ss) as [hs|] eqn:M; [|discriminate]. intros _.
      apply mapM_spec in M. induction M as [|s h ss hs F M IH]; intros k X; [destruct X|]. destruct X as [<- | X]; auto. unfold live. congruence. }
    destruct o as [s|s ty d kids|s ty d kids c g|s f|s f|s f|s f|s f|s|s t|s]; cbn [step clientOk]; unfold live, dead, overwrite; intros E.
    - apply free_dead. destruct (free s st); congruence.
    - destruct (free s st) eqn:Fr; [|discriminate]. apply free_dead in Fr. split; auto. cbn in E. destruct (small ty).
      + destruct kids; [|discriminate]. split; [auto | intros k []].
      + split; [discriminate|]. apply (CS kids (fun q => let (hs, st1) := q in let (h, st2) := alloc ty d hs None st1 in Some (setSlot s h st2)) st'). exact E.
    - destruct (free s st) eqn:Fr; [|discriminate]. apply free_dead in Fr. split; auto. cbn in E.
      destruct (eqb (cacheTy c) ty) eqn:Ct; [|discriminate]. apply eqb_eq in Ct. split; auto. cbn in E. destruct (small ty).
      + destruct kids; [|discriminate]. split; [auto | intros k []].
      + split; [discriminate|]. destruct (copySlots kids st) as [q|] eqn:Q; [|discriminate].
        apply (CS kids (fun q => Some st) st). now rewrite Q.
    - destruct (free s st) eqn:Fr; [|discriminate]. apply free_dead in Fr. split; auto. destruct (afind f (slots st)); congruence.
    - destruct (free s st) eqn:Fr; [|discriminate]. apply free_dead in Fr. destruct (afind f (slots st)) as [[| |]|]; try discriminate; repeat split; auto; congruence.
    - destruct (free s st) eqn:Fr; [|discriminate]. apply free_dead in Fr. split; auto. destruct (afind f (slots st)); congruence.
    - destruct (afind f (slots st)) as [h|] eqn:F; [|discriminate]. destruct (incr h (heap st)); [|discriminate]. cbn in E. split; [|congruence]. destruct (afind s (slots st)); congruence.
    - destruct (afind f (slots st)) as [h|] eqn:F; [|discriminate]. cbn in E. rewrite afind_aset in E. split; [|congruence].
      destruct (eq_dec s f); [congruence|]. destruct (afind s (slots st)); congruence.
    - destruct (afind s (slots st)); congruence.
    - destruct (afind s (slots st)); [|discriminate]. destruct (afind t (slots st)); [|discriminate]. split; congruence.
    - destruct (afind s (slots st)); congruence.
  Qed.

  Theorem run_inv os st st' : Inv [] st -> run small teq byValue cacheTy os st = Some st' -> Inv [] st'.
  Proof.
    revert st. induction os as [|o os IH]; intros st I R; cbn in R; [congruence|].
    destruct (step small teq byValue cacheTy o st) as [s1|] eqn:E; [|discriminate].
    destruct (step_correct o st I (step_client _ _ _ E)) as (s1' & E' & I' & _). assert (s1' = s1) by congruence. subst s1'. eauto.
  Qed.

  (** ** Consequences *)
  Lemma inv_needed st a : Inv [] st -> (afind a (heap st) <> None <-> needed st a).
  Proof.
    intros I. split.
    - assert (forall n a o, fresh st <= a + n -> afind a (heap st) = Some o -> needed st a) as G.
      { induction n as [|n IH]; intros b o Le F; [pose proof (I_fresh _ _ I b o F); lia|].
        destruct (I_rc _ _ I b o F) as [R R0]. rewrite R in R0. destruct (proj1 (cnt_pos _ _) R0) as (ty & c & H).
        unfold everything' in H. cbn [app] in H. rewrite in_app_iff in H. destruct H as [H|H].
        - apply in_map_iff in H. destruct H as ([s h] & Eh & H). cbn in Eh. subst h. apply In_afind in H; [|apply (I_nds _ _ I)]. eapply needed_slot; eauto.
        - apply in_kidsOf in H; [|apply (I_nd _ _ I)]. destruct H as (p & q & Fp & X). pose proof (I_ord _ _ I p q _ b Fp X eq_refl).
          eapply needed_kid; [|exact Fp|exact X]. apply (IH p q); auto. lia. }
      intros F. destruct (afind a (heap st)) as [o|] eqn:E; [|congruence]. apply (G (fresh st) a o); auto. lia.
    - induction 1 as [s ty c a F|p o ty c a N IH F X].
      + destruct (slot_ok _ _ _ _ I F) as (o & G & _). congruence.
      + assert (hok (heap st) (HHeap ty c a)) as (q & G & _); [|congruence].
        apply (I_ok _ _ I). unfold everything'. rewrite !in_app_iff. right; right. apply in_kidsOf; [apply (I_nd _ _ I)|eauto].
  Qed.

  Lemma inv_cached_same st c a b oa ob ty q ta tb k k' : Inv [] st -> afind a (heap st) = Some oa -> afind b (heap st) = Some ob ->
    oCache oa = Some c -> oCache ob = Some c -> readH k (heap st) (HHeap ty q a) = Some ta -> readH k' (heap st) (HHeap ty q b) = Some tb -> teq ta tb = true -> a = b.
  Proof.
    intros I Fa Fb Ca Cb Ra Rb T. destruct (Nat.eq_dec a b) as [|N]; auto. exfalso.
    assert (In a (entries c st)) as Ia by (apply (I_cin _ _ I); eauto). assert (In b (entries c st)) as Ib by (apply (I_cin _ _ I); eauto).
    pose proof (I_cdist _ _ I c a b k k' ta tb ty q Ia Ib N Ra Rb). congruence.
  Qed.
End P.
