From Coq Require Import List Bool Arith Lia.
From Verif Require Import Assoc StableVectorModel StableVectorSpec.
Import ListNotations.

(** ** Arithmetic of blocks *)
Definition base (k : nat) : nat := match k with 0 => 0 | S j => IC * 2 ^ j end.
Definition cap (k : nat) : nat := match k with 0 => IC | S j => IC * 2 ^ j end.

Lemma IC_val : IC = 32. Proof. reflexivity. Qed.
Lemma base_S k : base (S k) = base k + cap k.
Proof. destruct k; cbn [base cap]; [rewrite IC_val; reflexivity|]. cbn [Nat.pow]. lia. Qed.
Lemma cap_S k : cap (S k) = base (S k).
Proof. reflexivity. Qed.
Lemma pow_pos k : 0 < 2 ^ k.
Proof. induction k; cbn [Nat.pow]; lia. Qed.
Lemma cap_pos k : 0 < cap k.
Proof. destruct k; cbn [cap]; [rewrite IC_val; lia|]. pose proof (pow_pos k). rewrite IC_val. lia. Qed.
Lemma cap_double k : cap (S (S k)) = cap (S k) * 2.
Proof. cbn [cap Nat.pow]. lia. Qed.
Lemma cap_half k : cap (S (S k)) / 2 = cap (S k).
Proof. rewrite cap_double. apply Nat.div_mul. lia. Qed.
Lemma base_mono k k' : k <= k' -> base k <= base k'.
Proof. induction 1; auto. rewrite base_S. lia. Qed.
Lemma base_lt k k' : k < k' -> base k + cap k <= base k'.
Proof. intros Hk. rewrite <- base_S. now apply base_mono. Qed.
Lemma loc_unique k k' o o' : o < cap k -> o' < cap k' -> base k + o = base k' + o' -> k = k' /\ o = o'.
Proof.
  intros Ho Ho' E. destruct (lt_eq_lt_dec k k') as [[Hk|<-]|Hk].
  - apply base_lt in Hk. lia.
  - split; lia.
  - apply base_lt in Hk. lia.
Qed.
Lemma cap_pow k : cap (S k) = 2 ^ (k + LogIC).
Proof. rewrite Nat.pow_add_r. change (cap (S k)) with (IC * 2 ^ k). unfold IC. lia. Qed.
Lemma cap_isPow k : isPowerOf2 (cap (S k)) = true.
Proof.
  unfold isPowerOf2. rewrite cap_pow. rewrite Nat.log2_pow2 by lia. rewrite Nat.eqb_refl.
  pose proof (pow_pos (k + LogIC)). destruct (Nat.eqb_spec (2 ^ (k + LogIC)) 0); [lia|reflexivity].
Qed.
#[global] Opaque IC.
Arguments base : simpl never.
Arguments cap : simpl never.

Definition okIdx (k n : nat) : Prop := base k <= n <= base k + cap k /\ (k = 0 \/ base k < n).

Lemma okIdx_unique k k' n : okIdx k n -> okIdx k' n -> k = k'.
Proof.
  intros [A B] [A' B']. destruct (lt_eq_lt_dec k k') as [[Hk|]|Hk]; auto.
  - pose proof (base_lt _ _ Hk). destruct B' as [->|B']; lia.
  - pose proof (base_lt _ _ Hk). destruct B as [->|B]; lia.
Qed.

(** ** Lists *)
Lemma upd_ok {A} (a : A) l : forall i, i < length l -> exists l', upd i a l = Some l' /\ length l' = length l /\
  forall j, nth_error l' j = if j =? i then Some a else nth_error l j.
Proof.
  induction l as [|x l IH]; intros i Hi; cbn in Hi; [lia|]. destruct i.
  - exists (a :: l). split; [reflexivity|]. split; [reflexivity|]. intros [|j]; reflexivity.
  - destruct (IH i) as (l' & E & L & N); [lia|]. exists (x :: l'). cbn [upd]. rewrite E.
    split; [reflexivity|]. split; [cbn; now rewrite L|]. intros [|j]; [reflexivity|]. apply N.
Qed.

Lemma nth_error_snoc {A} (l : list A) x j :
  nth_error (l ++ [x]) j = if j =? length l then Some x else nth_error l j.
Proof.
  destruct (Nat.eqb_spec j (length l)) as [->|Hj].
  - rewrite nth_error_app2 by lia. now rewrite Nat.sub_diag.
  - destruct (le_lt_dec (length l) j).
    + rewrite nth_error_app2 by lia. destruct (j - length l) eqn:E; [lia|]. cbn.
      replace (nth_error (@nil A) n) with (@None A) by (now destruct n).
      symmetry. apply nth_error_None. lia.
    + now rewrite nth_error_app1.
Qed.
Lemma nth_error_firstn {A} n : forall (l : list A) j, nth_error (firstn n l) j = if j <? n then nth_error l j else None.
Proof.
  induction n as [|n IH]; intros l j; [cbn; now destruct j|].
  destruct l; cbn [firstn]; [destruct j; cbn [nth_error]; match goal with |- _ = if ?c then _ else _ => now destruct c end|]. destruct j; [reflexivity|]. cbn [nth_error]. rewrite IH.
  reflexivity.
Qed.
Lemma nth_some {A} (l : list A) j : j < length l -> exists x, nth_error l j = Some x.
Proof. intros Hj. destruct (nth_error l j) eqn:E; eauto. apply nth_error_None in E. lia. Qed.

Lemma nth_error_ext' {A} : forall l m : list A, (forall j, nth_error l j = nth_error m j) -> l = m.
Proof.
  induction l as [|x l IH]; intros [|y m] E; auto.
  - specialize (E 0). discriminate.
  - specialize (E 0). discriminate.
  - pose proof (E 0) as E0. cbn in E0. injection E0 as ->. f_equal. apply IH. intros j. apply (E (S j)).
Qed.

(** ** Memory *)
Section P.
  Context {T : Type}.
  Notation heap := (heap T).
  Implicit Types (h : heap) (f g : nat -> option T) (l : list T) (v : sv).

  Definition blk h (b c : nat) f : Prop :=
    exists cs, nth_error h b = Some (Some cs) /\ length cs = c /\ forall o, o < c -> nth_error cs o = Some (f o).
  Definition frame h h' (b : nat) : Prop := length h' = length h /\ forall b', b' <> b -> nth_error h' b' = nth_error h b'.

  Lemma blk_lt h b c f : blk h b c f -> b < length h.
  Proof. intros (cs & E & _). apply nth_error_Some. congruence. Qed.
  Lemma blk_ext h b c f g : (forall o, o < c -> f o = g o) -> blk h b c f -> blk h b c g.
  Proof. intros E (cs & A & B & C). exists cs. split; auto. split; auto. intros o Ho. rewrite C, E; auto. Qed.
  Lemma blk_frame h h' b b' c f : frame h h' b -> b' <> b -> blk h b' c f -> blk h' b' c f.
  Proof. intros [_ F] Hn (cs & A & B & C). exists cs. rewrite F; auto. Qed.
  Lemma blk_same h h' b c f : nth_error h' b = nth_error h b -> blk h b c f -> blk h' b c f.
  Proof. intros E (cs & A & B & C). exists cs. rewrite E. auto. Qed.
  Lemma frame_refl h b : frame h h b.
  Proof. split; auto. Qed.
  Lemma frame_trans h1 h2 h3 b : frame h1 h2 b -> frame h2 h3 b -> frame h1 h3 b.
  Proof. intros [L A] [M B]. split; [congruence|]. intros b' Hb. rewrite B, A; auto. Qed.

  Definition fset f (o : nat) (x : option T) : nat -> option T := fun j => if j =? o then x else f j.

  Lemma put_blk h b c f o x cs cs' h' : blk h b c f -> nth_error h b = Some (Some cs) ->
    upd o x cs = Some cs' -> o < c -> upd b (Some cs') h = Some h' ->
    blk h' b c (fset f o x) /\ frame h h' b.
  Proof.
    intros Hb E U Ho U'. pose proof (blk_lt _ _ _ _ Hb) as Hlt. destruct Hb as (cs0 & E0 & L & C).
    rewrite E in E0. injection E0 as <-.
    destruct (upd_ok x cs o) as (c1 & U1 & L1 & N1); [lia|]. rewrite U in U1. injection U1 as <-.
    destruct (upd_ok (Some cs') h b Hlt) as (h1 & V1 & M1 & P1). rewrite U' in V1. injection V1 as <-.
    split.
    - exists cs'. rewrite P1, Nat.eqb_refl. split; auto. split; [lia|]. intros j Hj. rewrite N1. unfold fset.
      destruct (j =? o); auto.
    - split; auto. intros b' Hb'. rewrite P1. apply Nat.eqb_neq in Hb'. now rewrite Hb'.
  Qed.

  Lemma upd_exists {A} (a : A) (xs : list A) i : i < length xs -> exists ys : list A, upd i a xs = Some ys.
  Proof. intros Hi. destruct (upd_ok a xs i Hi) as (ys & E & _). eauto. Qed.

  Lemma construct_ok h b c f o x : blk h b c f -> o < c -> f o = None ->
    exists h', construct (b, o) x h = Some h' /\ blk h' b c (fset f o (Some x)) /\ frame h h' b.
  Proof.
    intros Hb Ho Hf. pose proof (blk_lt _ _ _ _ Hb) as Hlt. pose proof Hb as (cs & E & L & C).
    unfold construct, cells. cbn [fst snd]. rewrite E. cbn [bind]. rewrite (C o Ho), Hf.
    destruct (upd_exists (Some x) cs o) as (cs' & U); [lia|]. rewrite U. cbn [bind].
    destruct (upd_exists (Some cs') h b Hlt) as (h' & U'). rewrite U'. exists h'. split; auto.
    eapply put_blk; eauto.
  Qed.
  Lemma destroy_ok h b c f o : blk h b c f -> o < c -> f o <> None ->
    exists h', destroy (b, o) h = Some h' /\ blk h' b c (fset f o None) /\ frame h h' b.
  Proof.
    intros Hb Ho Hf. pose proof (blk_lt _ _ _ _ Hb) as Hlt. pose proof Hb as (cs & E & L & C).
    unfold destroy, cells. cbn [fst snd]. rewrite E. cbn [bind]. rewrite (C o Ho).
    destruct (f o) eqn:Ef; [|congruence].
    destruct (upd_exists None cs o) as (cs' & U); [lia|]. rewrite U. cbn [bind].
    destruct (upd_exists (Some cs') h b Hlt) as (h' & U'). rewrite U'. exists h'. split; auto.
    eapply put_blk; eauto.
  Qed.
  Lemma read_ok h b c f o x : blk h b c f -> o < c -> f o = Some x -> read (b, o) h = Some x.
  Proof.
    intros (cs & E & L & C) Ho Hf. unfold read, cells. cbn [fst snd]. rewrite E. cbn [bind].
    now rewrite (C o Ho), Hf.
  Qed.

  Lemma destroy_n_ok n : forall h b c f o, blk h b c f -> o + n <= c ->
    (forall j, o <= j < o + n -> f j <> None) ->
    exists h', destroy_n (b, o) n h = Some h' /\
      blk h' b c (fun j => if (o <=? j) && (j <? o + n) then None else f j) /\ frame h h' b.
  Proof.
    induction n as [|n IH]; intros h b c f o Hb Hc Hf.
    - exists h. split; [reflexivity|]. split; [|apply frame_refl]. eapply blk_ext; [|exact Hb].
      intros j Hj. cbv beta. destruct (Nat.leb_spec o j), (Nat.ltb_spec j (o + 0)); cbn; auto; lia.
    - cbn [destroy_n]. destruct (destroy_ok h b c f o Hb) as (h1 & E & B1 & F1); [lia|apply Hf; lia|].
      rewrite E. cbn [bind fst snd].
      destruct (IH h1 b c _ (o + 1) B1) as (h2 & E2 & B2 & F2); [lia| |].
      { intros j Hj. unfold fset. destruct (Nat.eqb_spec j o); [lia|]. apply Hf. lia. }
      exists h2. split; auto. split; [|eapply frame_trans; eauto].
      eapply blk_ext; [|exact B2]. intros j Hj. cbv beta. unfold fset.
      destruct (Nat.leb_spec (o + 1) j), (Nat.ltb_spec j (o + 1 + n)), (Nat.leb_spec o j), (Nat.ltb_spec j (o + S n)),
        (Nat.eqb_spec j o); cbn; auto; lia.
  Qed.

  Lemma deallocate_ok h b c f : blk h b c f -> (forall o, o < c -> f o = None) ->
    exists h', deallocate (b, 0) c h = Some h' /\ frame h h' b /\ nth_error h' b = Some None.
  Proof.
    intros Hb Hf. pose proof (blk_lt _ _ _ _ Hb) as Hlt. destruct Hb as (cs & E & L & C).
    unfold deallocate, cells. cbn [fst snd]. rewrite E. cbn [bind].
    assert (Hall : forallb (fun x : option T => match x with None => true | _ => false end) cs = true).
    { apply forallb_forall. intros y Hy. apply In_nth_error in Hy as (j & Hj).
      assert (j < length cs) by (apply nth_error_Some; congruence).
      rewrite C in Hj by lia. injection Hj as <-. rewrite Hf by lia. reflexivity. }
    rewrite Hall, L, Nat.eqb_refl. cbn [andb Nat.eqb guard bind].
    destruct (upd_ok None h b Hlt) as (h' & U & M & P). rewrite U. exists h'. split; auto. split.
    - split; auto. intros b' Hb'. rewrite P. apply Nat.eqb_neq in Hb'. now rewrite Hb'.
    - now rewrite P, Nat.eqb_refl.
  Qed.

  Lemma allocate_blk n h : blk (h ++ [Some (repeat None n)]) (length h) n (fun _ => None).
  Proof.
    exists (repeat None n). rewrite nth_error_app2, Nat.sub_diag by lia. split; [reflexivity|].
    rewrite repeat_length. split; auto. intros o Ho. now apply nth_error_repeat.
  Qed.
  Lemma allocate_other n h b : b < length h -> nth_error (h ++ [Some (repeat None n)]) b = nth_error h b.
  Proof. apply nth_error_app1. Qed.

  (** ** The representation *)
  Definition mkp (b : nat) : ptr := (b, 0).
  Definition content l (k : nat) : nat -> option T := fun o => nth_error l (base k + o).

  Record rep' l v h (ids : list nat) : Prop := {
    r_blocks : blocks v = map mkp ids;
    r_nodup : NoDup ids;
    r_cells : forall k b, nth_error ids k = Some b -> blk h b (cap k) (content l k);
    r_state : (ids = [] /\ l = [] /\ v = empty) \/
      exists b, nth_error ids (blockIdx v) = Some b /\ size v = length l /\ okIdx (blockIdx v) (length l) /\
        start v = Some (b, 0) /\ pos v = Some (b, length l - base (blockIdx v)) /\
        end_ v = Some (b, cap (blockIdx v)) }.
  Definition rep l v h : Prop := exists ids, rep' l v h ids.

  Lemma rep_empty h : rep [] empty h.
  Proof.
    exists []. constructor; auto; [constructor|]. intros [|k] b; discriminate.
  Qed.

  Lemma ids_block v ids k b : blocks v = map mkp ids -> nth_error ids k = Some b ->
    nth_error (blocks v) k = Some (b, 0).
  Proof. intros -> E. exact (map_nth_error mkp _ _ E). Qed.

  Lemma nodup_nth (ids : list nat) i j b : NoDup ids -> nth_error ids i = Some b -> nth_error ids j = Some b -> i = j.
  Proof. intros Hn Hi Hj. apply (proj1 (NoDup_nth_error ids) Hn); [apply nth_error_Some; congruence|congruence]. Qed.

  (** changing one block *)
  Lemma cells_update l l' h h' ids k b c' : NoDup ids -> nth_error ids k = Some b ->
    (forall k b, nth_error ids k = Some b -> blk h b (cap k) (content l k)) ->
    frame h h' b -> blk h' b (cap k) c' ->
    (forall o, o < cap k -> c' o = content l' k o) ->
    (forall k' o, k' <> k -> o < cap k' -> content l k' o = content l' k' o) ->
    forall k b, nth_error ids k = Some b -> blk h' b (cap k) (content l' k).
  Proof.
    intros Hn Hk Hc Hf Hb H1 H2 k' b' Hk'. destruct (Nat.eq_dec k' k) as [->|Hne].
    - rewrite Hk in Hk'. injection Hk' as <-. eapply blk_ext; eauto.
    - assert (b' <> b) by (intros ->; apply Hne; eapply nodup_nth; eauto).
      eapply blk_ext; [|eapply blk_frame; eauto]. intros o Ho. now apply H2.
  Qed.

  Lemma content_snoc l x k o : content (l ++ [x]) k o = if base k + o =? length l then Some x else content l k o.
  Proof. unfold content. apply nth_error_snoc. Qed.

  Lemma snoc_other l x k n k' o : length l = base k + n -> n < cap k -> k' <> k -> o < cap k' ->
    content l k' o = content (l ++ [x]) k' o.
  Proof.
    intros L Hn Hk Ho. rewrite content_snoc. destruct (Nat.eqb_spec (base k' + o) (length l)); auto.
    destruct (loc_unique k' k o n); auto; lia.
  Qed.
  Lemma snoc_here l x k n o : length l = base k + n -> o < cap k ->
    fset (content l k) n (Some x) o = content (l ++ [x]) k o.
  Proof.
    intros L Ho. rewrite content_snoc. unfold fset.
    destruct (Nat.eqb_spec o n), (Nat.eqb_spec (base k + o) (length l)); auto; lia.
  Qed.

  Lemma eqb_ptr_neq (p q : option ptr) : p <> q -> eqb p q = false.
  Proof. intros. now apply eqb_false. Qed.

  (** location of index i in a vector *)
  Definition addr v (i : nat) : option ptr := subscript i v.

  Lemma subscript_ok ids v k o : blocks v = map mkp ids -> o < cap k ->
    subscript (base k + o) v = option_map (fun b => (b, o)) (nth_error ids k).
  Proof.
    intros Hb Ho. unfold subscript. rewrite Hb, !nth_error_map.
    destruct k as [|k].
    - change (base 0 + o) with o. change (cap 0) with IC in Ho.
      destruct (Nat.ltb_spec o IC); [|lia]. destruct (nth_error ids 0); reflexivity.
    - pose proof (cap_pow k) as Hp. rewrite cap_S in Hp. rewrite cap_S in Ho.
      assert (HI : IC <= base (S k)).
      { change (base (S k)) with (IC * 2 ^ k). pose proof (pow_pos k). nia. }
      destruct (Nat.ltb_spec (base (S k) + o) IC); [lia|].
      assert (Hlog : Nat.log2 (base (S k) + o) = k + LogIC).
      { apply Nat.log2_unique; [lia|]. rewrite Hp in *. cbn [Nat.pow]. lia. }
      rewrite Hlog. replace (k + LogIC - (LogIC - 1)) with (S k) by (unfold LogIC; lia).
      destruct (nth_error ids (S k)); [|reflexivity]. cbn. unfold padd. cbn.
      do 3 f_equal. lia.
  Qed.

  Lemma locate i : exists k o, i = base k + o /\ o < cap k.
  Proof.
    destruct (le_lt_dec IC i) as [Hi|Hi].
    - exists (S (Nat.log2 i - LogIC)), (i - 2 ^ Nat.log2 i).
      assert (LogIC <= Nat.log2 i) by (rewrite <- (Nat.log2_pow2 LogIC) by lia; now apply Nat.log2_le_mono).
      rewrite cap_S. pose proof (cap_pow (Nat.log2 i - LogIC)) as Hp. rewrite cap_S in Hp.
      replace (Nat.log2 i - LogIC + LogIC) with (Nat.log2 i) in Hp by lia. rewrite Hp.
      assert (0 < i) by (rewrite IC_val in Hi; lia).
      pose proof (Nat.log2_spec i H0). cbn [Nat.pow] in *. lia.
    - exists 0, i. split; [reflexivity|]. exact Hi.
  Qed.

  Lemma idx_bound l v k o : okIdx (blockIdx v) (length l) ->
    base k + o < length l -> k <= blockIdx v.
  Proof.
    intros [A _] Hlt. destruct (le_lt_dec k (blockIdx v)); auto.
    pose proof (base_lt _ _ l0). lia.
  Qed.

  Lemma rep_index l v h i x : rep l v h -> nth_error l i = Some x ->
    exists p, subscript i v = Some p /\ read p h = Some x.
  Proof.
    intros (ids & R) Hx. destruct (locate i) as (k & o & -> & Ho).
    assert (Hlt : base k + o < length l) by (apply nth_error_Some; congruence).
    destruct (r_state _ _ _ _ R) as [(-> & -> & _)|(b & Hb & Hs & Hok & _)]; [cbn in Hlt; lia|].
    assert (Hk : k <= blockIdx v) by (eapply idx_bound; eauto).
    assert (exists b', nth_error ids k = Some b') as (b' & Hb').
    { apply nth_some. assert (blockIdx v < length ids) by (apply nth_error_Some; congruence). lia. }
    exists (b', o). rewrite (subscript_ok ids) by (auto; apply R). rewrite Hb'. split; [reflexivity|].
    eapply read_ok; [apply (r_cells _ _ _ _ R _ _ Hb')|auto|exact Hx].
  Qed.

  (** ** emplace_back *)
  Lemma emplace_ok l v h ids x : rep' l v h ids ->
    exists p v' h' ids', emplace_back x v h = Some (p, v', h') /\ rep' (l ++ [x]) v' h' ids' /\
      (exists more, ids' = ids ++ more) /\ subscript (length l) v' = Some p.
  Proof.
    intros R. destruct R as [Rb Rn Rc [(-> & -> & ->)|(b & Hb & Hs & Hok & Hst & Hp & He)]].
    - (* first block *)
      unfold emplace_back. cbn [pos end_ empty]. rewrite eqb_refl.
      unfold growAndEmplace. cbn [blocks empty allocate bind nth_error blockIdx size].
      destruct (construct_ok (h ++ [Some (repeat None IC)]) (length h) IC (fun _ => None) 0 x) as (h' & E & B & F);
        auto using allocate_blk; [rewrite IC_val; lia|].
      rewrite E. cbn [bind]. eexists _, _, _, [length h]. split; [reflexivity|]. split; [|split].
      + constructor; auto.
        * constructor; [intros []|constructor].
        * intros [|k] b Hk; [|destruct k; discriminate]. injection Hk as <-.
          eapply blk_ext; [|exact B]. intros o Ho. change (cap 0) with IC in Ho. unfold fset, content.
          change (base 0 + o) with o. destruct o; [reflexivity|]. cbn. now destruct o.
        * right. exists (length h). cbn [blockIdx size start pos end_]. repeat split; auto; cbn; try lia.
          all: change (base 0) with 0; change (cap 0) with IC; rewrite ?IC_val; lia.
      + exists [length h]; reflexivity.
      + cbn. unfold subscript. rewrite IC_val. reflexivity.
    - assert (Hbi : blockIdx v < length ids) by (apply nth_error_Some; congruence).
      destruct Hok as [Hok1 Hok2].
      set (bi := blockIdx v) in *.
      unfold emplace_back. rewrite Hp, He.
      destruct (Nat.eq_dec (length l - base bi) (cap bi)) as [Hfull|Hfree].
      + (* block full *)
        rewrite Hfull, eqb_refl. unfold growAndEmplace.
        assert (HL : length l = base (S bi)) by (rewrite base_S; lia).
        assert (Hne : blocks v <> []) by (rewrite Rb; destruct ids; [cbn in Hbi; lia|discriminate]).
        destruct (blocks v) as [|p0 bs0] eqn:Ebs; [congruence|]. rewrite <- Ebs in *. clear Hne.
        rewrite Hs, HL. replace (isPowerOf2 (base (S bi))) with true by (symmetry; apply (cap_isPow bi)). cbn [guard bind]. fold bi.
        assert (Hlen : length (blocks v) = length ids) by (rewrite Rb; apply map_length).
        rewrite Hlen. destruct (Nat.ltb_spec bi (length ids - 1)) as [Hlt|Hge].
        * (* existing block *)
          destruct (nth_some ids (bi + 1)) as (b1 & Hb1); [lia|].
          rewrite (ids_block v ids _ b1 Rb Hb1). cbn [bind].
          rewrite (ids_block v ids _ b1 Rb Hb1). cbn [bind].
          replace (bi + 1) with (S bi) in * by lia.
          pose proof (Rc _ _ Hb1) as B1.
          destruct (construct_ok h b1 (cap (S bi)) (content l (S bi)) 0 x B1) as (h' & E & B & F).
          { apply cap_pos. }
          { unfold content. apply nth_error_None. lia. }
          rewrite E. cbn [bind]. eexists _, _, _, ids. split; [reflexivity|]. split; [|split].
          -- constructor; auto.
             ++ eapply cells_update; eauto.
                ** intros o Ho. apply snoc_here; auto. lia.
                ** intros k' o Hk' Ho. apply snoc_other with (k := S bi) (n := 0); auto; [lia|apply cap_pos].
             ++ right. exists b1. cbn [blockIdx size start pos end_]. rewrite app_length. cbn [length].
                pose proof (cap_pos (S bi)). repeat split; auto; try lia; try (right; lia).
                unfold padd. cbn. do 2 f_equal. lia.
          -- exists []. now rewrite app_nil_r.
          -- replace (base (S bi)) with (base (S bi) + 0) by lia.
             rewrite (subscript_ok ids _ (S bi) 0); [|exact Rb|apply cap_pos]. now rewrite Hb1.
        * (* new block *)
          unfold allocate. cbn [bind].
          assert (Hbl : bi + 1 = length ids) by lia.
          rewrite nth_error_app2 by lia. replace (bi + 1 - length (blocks v)) with 0 by lia. cbn [nth_error bind].
          assert (HLc : length l = cap (S bi)) by (rewrite cap_S; auto).
          set (h1 := h ++ [Some (repeat None (base (S bi)))]).
          destruct (construct_ok h1 (length h) (base (S bi)) (fun _ => None) 0 x) as (h' & E & B & F); auto.
          { apply allocate_blk. }
          { rewrite <- cap_S. apply cap_pos. }
          rewrite E. cbn [bind]. eexists _, _, _, (ids ++ [length h]). split; [reflexivity|].
          assert (Hnew : ~ In (length h) ids).
          { intros Hin. apply In_nth_error in Hin as (k & Hk). apply Rc, blk_lt in Hk. lia. }
          split; [|split].
          -- constructor.
             ++ cbn [blocks]. rewrite Rb, map_app. reflexivity.
             ++ now apply NoDup_app_single.
             ++ intros k b' Hk. rewrite nth_error_snoc in Hk. destruct (Nat.eqb_spec k (length ids)) as [->|Hk'].
                ** injection Hk as <-. rewrite <- Hbl. replace (bi + 1) with (S bi) by lia.
                   eapply blk_ext; [|exact B]. intros o Ho. rewrite content_snoc. unfold fset, content.
                   destruct (Nat.eqb_spec o 0), (Nat.eqb_spec (base (S bi) + o) (length l)); auto; try lia.
                   symmetry. apply nth_error_None. lia.
                ** pose proof (Rc _ _ Hk) as B'. assert (b' <> length h) by (apply blk_lt in B'; lia).
                   eapply blk_frame; eauto. apply (blk_same h). { apply allocate_other. eapply blk_lt; eauto. }
                   eapply blk_ext; [|exact B']. intros o Ho. apply snoc_other with (k := S bi) (n := 0); auto; [lia|apply cap_pos|].
                   assert (k < length ids) by (apply nth_error_Some; congruence). lia.
             ++ right. exists (length h). cbn [blockIdx size start pos end_]. rewrite app_length. cbn [length].
                rewrite nth_error_snoc, <- Hbl, Nat.eqb_refl. replace (bi + 1) with (S bi) by lia.
                pose proof (cap_pos (S bi)). repeat split; auto; try lia; try (right; lia).
                unfold padd. cbn. do 2 f_equal. lia.
          -- eauto.
          -- replace (base (S bi)) with (base (S bi) + 0) by lia.
             rewrite (subscript_ok (ids ++ [length h]) _ (S bi) 0); [| |apply cap_pos].
             ++ rewrite nth_error_snoc. replace (S bi) with (length ids) by lia. now rewrite Nat.eqb_refl.
             ++ cbn [blocks]. rewrite Rb, map_app. reflexivity.
      + (* room in the current block *)
        rewrite eqb_ptr_neq by congruence. cbn [bind].
        set (n := length l - base bi) in *.
        assert (HL : length l = base bi + n) by lia. assert (Hn : n < cap bi) by lia.
        destruct (construct_ok h b (cap bi) (content l bi) n x (Rc _ _ Hb)) as (h' & E & B & F); auto.
        { unfold content. apply nth_error_None. lia. }
        rewrite E. cbn [bind]. eexists _, _, _, ids. split; [reflexivity|]. split; [|split].
        * constructor; auto.
          -- eapply cells_update; eauto.
             ++ intros o Ho. apply snoc_here; auto.
             ++ intros k' o Hk' Ho. apply snoc_other with (k := bi) (n := n); auto.
          -- right. exists b. cbn [blockIdx size start pos end_]. rewrite app_length. cbn [length]. fold bi.
             repeat split; auto; try lia. unfold padd. cbn. do 2 f_equal. lia.
        * exists []. now rewrite app_nil_r.
        * rewrite HL. rewrite (subscript_ok ids _ bi n); auto. now rewrite Hb.
  Qed.

  (** ** pop_back *)
  Lemma previous_ok v ids checked b : blocks v = map mkp ids -> nth_error ids (blockIdx v) = Some b ->
    blockIdx v <> 0 -> start v = Some (b, 0) -> end_ v = Some (b, cap (blockIdx v)) ->
    (checked = true -> size v = base (blockIdx v)) ->
    exists b', nth_error ids (blockIdx v - 1) = Some b' /\
      previousBlock v checked = Some ((b', 0), cap (blockIdx v - 1)).
  Proof.
    intros Rb Hb H0 Hs He Hc.
    destruct (nth_some ids (blockIdx v - 1)) as (b' & Hb').
    { assert (blockIdx v < length ids) by (apply nth_error_Some; congruence). lia. }
    exists b'. split; auto. unfold previousBlock.
    destruct (Nat.eqb_spec (blockIdx v - 1) 0) as [E|E].
    - rewrite E in Hb'. rewrite (ids_block v ids _ b' Rb Hb'). cbn [bind]. rewrite E. reflexivity.
    - rewrite Hs, He. unfold pdiff. rewrite Nat.eqb_refl. cbn [Nat.leb andb bind]. rewrite Nat.sub_0_r.
      destruct (blockIdx v) as [|[|k]] eqn:Ek; try lia.
      rewrite cap_isPow. cbn [andb].
      replace (negb checked || (cap (S (S k)) =? size v)) with true.
      + cbn [guard bind]. rewrite (ids_block v ids _ b' Rb Hb'). cbn [bind]. rewrite cap_half.
        replace (S (S k) - 1) with (S k) by lia. reflexivity.
      + destruct checked; [|reflexivity]. rewrite (Hc eq_refl), cap_S, Nat.eqb_refl. reflexivity.
  Qed.

  Lemma pop_ok l x v h ids : rep' (l ++ [x]) v h ids ->
    exists v' h', pop_back v h = Some (v', h') /\ rep' l v' h' ids.
  Proof.
    intros [Rb Rn Rc [(_ & E & _)|(b & Hb & Hs & [Hok1 Hok2] & Hst & Hp & He)]]; [now destruct l|].
    rewrite app_length in *. cbn [length] in *. set (bi := blockIdx v) in *.
    assert (Hle : base bi <= length l).
    { destruct Hok2 as [->|]; [change (base 0) with 0|]; lia. }
    set (n := length l - base bi). assert (HL : length l = base bi + n) by lia. assert (Hn : n < cap bi) by lia.
    unfold pop_back, back. rewrite Hs. destruct (Nat.eqb_spec (length l + 1) 0); [lia|]. cbn [negb guard bind].
    rewrite Hp. cbn [bind fst snd]. destruct (Nat.ltb_spec 0 (length l + 1 - base bi)); [|lia]. cbn [guard bind].
    replace (length l + 1 - base bi - 1) with n by lia.
    destruct (destroy_ok h b (cap bi) _ n (Rc _ _ Hb)) as (h' & E & B & F); auto.
    { rewrite content_snoc. destruct (Nat.eqb_spec (base bi + n) (length l)); [discriminate|lia]. }
    rewrite E. cbn [bind].
    assert (Hcells : forall k b, nth_error ids k = Some b -> blk h' b (cap k) (content l k)).
    { eapply cells_update; eauto.
      - intros o Ho. unfold fset. rewrite content_snoc.
        destruct (Nat.eqb_spec o n) as [->|].
        + unfold content. symmetry. apply nth_error_None. lia.
        + destruct (Nat.eqb_spec (base bi + o) (length l)); [lia|auto].
      - intros k' o Hk' Ho. symmetry. eapply snoc_other; eauto. }
    rewrite Hst. destruct (Nat.eq_dec n 0) as [Hn0|Hn0].
    - rewrite Hn0, eqb_refl. cbn [negb]. fold bi. destruct (Nat.eqb_spec bi 0) as [E0|E0].
      + eexists _, _. split; [reflexivity|]. constructor; auto. right. exists b. cbn [blockIdx size start pos end_].
        fold bi. repeat split; auto; try lia. do 2 f_equal. lia.
      + set (v' := mkSV (blocks v) (Some (b, 0)) (Some (b, 0)) (end_ v) (length l + 1 - 1) bi).
        destruct (previous_ok v' ids true b) as (b' & Hb' & Epr); auto.
        { cbn. lia. }
        subst v'; cbn [blockIdx] in Hb', Epr. match type of Epr with ?a = _ => match goal with |- context [previousBlock ?x ?y] => change (previousBlock x y) with a end end. rewrite Epr. cbn [bind]. eexists _, _. split; [reflexivity|].
        pose proof (base_S (bi - 1)) as HbS. replace (S (bi - 1)) with bi in HbS by lia. pose proof (cap_pos (bi - 1)).
        constructor; auto. right. exists b'. cbn [blockIdx size start pos end_].
        repeat split; auto; try lia. unfold padd. cbn. do 2 f_equal. lia.
    - rewrite eqb_ptr_neq by congruence. cbn [negb]. eexists _, _. split; [reflexivity|].
      constructor; auto. right. exists b. cbn [blockIdx size start pos end_]. fold bi.
      repeat split; auto; try lia.
  Qed.

  (** ** destroying the contents of several blocks *)
  Definition cellsAre h (ids : list nat) (c : nat -> nat -> option T) : Prop :=
    forall k b, nth_error ids k = Some b -> blk h b (cap k) (c k).

  Lemma cellsAre_update h h' ids c k b c' : NoDup ids -> nth_error ids k = Some b ->
    cellsAre h ids c -> frame h h' b -> blk h' b (cap k) c' ->
    cellsAre h' ids (fun k' => if k' =? k then c' else c k').
  Proof.
    intros Hn Hk Hc Hf Hb k' b' Hk'. destruct (Nat.eqb_spec k' k) as [->|Hne].
    - congruence.
    - eapply blk_frame; eauto. intros ->. apply Hne. eapply nodup_nth; eauto.
  Qed.
  Lemma cellsAre_ext h ids c c' : (forall k o, k < length ids -> o < cap k -> c k o = c' k o) ->
    cellsAre h ids c -> cellsAre h ids c'.
  Proof.
    intros E Hc k b Hk. eapply blk_ext; [|apply Hc; exact Hk]. intros o Ho. apply E; auto.
    apply nth_error_Some. congruence.
  Qed.

  Lemma clearBlocks_ok v ids : blocks v = map mkp ids -> NoDup ids ->
    forall n i h c, cellsAre h ids c -> i + n <= length ids ->
    (forall k o, i <= k < i + n -> o < cap k -> c k o <> None) ->
    exists h', clearBlocks n i (cap i) (cap (S i)) v h = Some h' /\ length h' = length h /\
      cellsAre h' ids (fun k => if (i <=? k) && (k <? i + n) then fun _ => None else c k).
  Proof.
    intros Rb Rn. induction n as [|n IH]; intros i h c Hc Hlen Hne.
    - exists h. split; [reflexivity|]. split; auto. eapply cellsAre_ext; [|exact Hc]. intros k o _ _. cbv beta.
      destruct (Nat.leb_spec i k), (Nat.ltb_spec k (i + 0)); cbn; auto; lia.
    - cbn [clearBlocks]. destruct (nth_some ids i) as (b & Hb); [lia|].
      rewrite (ids_block v ids _ b Rb Hb). cbn [bind].
      destruct (destroy_n_ok (cap i) h b (cap i) (c i) 0 (Hc _ _ Hb)) as (h1 & E & B & F); [lia| |].
      { intros j Hj. apply Hne; lia. }
      rewrite E. cbn [bind]. replace (cap (S i) + cap (S i)) with (cap (S (S i))) by (rewrite cap_double; lia).
      pose proof (cellsAre_update _ _ _ _ _ _ _ Rn Hb Hc F B) as Hc1.
      destruct (IH (S i) h1 _ Hc1) as (h2 & E2 & L2 & Hc2); [lia| |].
      { intros k o Hk Ho. cbv beta. destruct (Nat.eqb_spec k i); [lia|]. apply Hne; lia. }
      rewrite Nat.add_1_r. exists h2. split; auto. split; [destruct F; lia|].
      eapply cellsAre_ext; [|exact Hc2]. intros k o _ Ho. cbv beta.
      destruct (Nat.leb_spec (S i) k), (Nat.ltb_spec k (S i + n)), (Nat.leb_spec i k), (Nat.ltb_spec k (i + S n)),
        (Nat.eqb_spec k i); cbn [andb]; auto; try lia.
      destruct (Nat.ltb_spec o (0 + cap i)); [reflexivity|]. subst. lia.
  Qed.

  (** the contents of the current block *)
  Lemma current_ok l v ids h c b : NoDup ids -> cellsAre h ids c -> nth_error ids (blockIdx v) = Some b ->
    okIdx (blockIdx v) (length l) -> start v = Some (b, 0) -> pos v = Some (b, length l - base (blockIdx v)) ->
    (forall o, o < cap (blockIdx v) -> c (blockIdx v) o = content l (blockIdx v) o) ->
    exists h', destroyRange (start v) (pos v) h = Some h' /\ length h' = length h /\
      cellsAre h' ids (fun k => if k =? blockIdx v then fun _ => None else c k).
  Proof.
    intros Rn Hc Hb [Hok _] Hs Hp Hl. set (bi := blockIdx v) in *.
    unfold destroyRange. rewrite Hs, Hp. unfold pdiff. rewrite Nat.eqb_refl. cbn [Nat.leb andb bind]. rewrite Nat.sub_0_r.
    destruct (destroy_n_ok (length l - base bi) h b (cap bi) (c bi) 0 (Hc _ _ Hb)) as (h1 & E & B & F); [lia| |].
    { intros j Hj. rewrite Hl by lia. unfold content. apply nth_error_Some. lia. }
    exists h1. split; auto. split; [apply F|].
    pose proof (cellsAre_update _ _ _ _ _ _ _ Rn Hb Hc F B) as Hc1.
    eapply cellsAre_ext; [|exact Hc1]. intros k o _ Ho. cbv beta.
    destruct (Nat.eqb_spec k bi) as [->|]; auto.
    destruct (Nat.leb_spec 0 o), (Nat.ltb_spec o (0 + (length l - base bi))); cbn [andb]; auto; try lia.
    rewrite Hl by auto. unfold content. apply nth_error_None. lia.
  Qed.

  Lemma full_block l v k o : okIdx (blockIdx v) (length l) -> k < blockIdx v -> o < cap k -> content l k o <> None.
  Proof.
    intros [Hok _] Hk Ho. unfold content. apply nth_error_Some. pose proof (base_lt _ _ Hk). lia.
  Qed.
  Lemma free_block l v k o : okIdx (blockIdx v) (length l) -> blockIdx v < k -> content l k o = None.
  Proof.
    intros [Hok _] Hk. unfold content. apply nth_error_None. pose proof (base_lt _ _ Hk). lia.
  Qed.

  Lemma clear_ok l v h ids : rep' l v h ids ->
    exists v' h', clear v h = Some (v', h') /\ rep' [] v' h' ids.
  Proof.
    intros [Rb Rn Rc [(-> & -> & ->)|(b & Hb & Hs & Hok & Hst & Hp & He)]].
    - eexists _, h. split; [reflexivity|]. constructor; auto.
    - assert (Hbi : blockIdx v < length ids) by (apply nth_error_Some; congruence).
      unfold clear. change (clearBlocks (blockIdx v) 0 IC IC v h) with (clearBlocks (blockIdx v) 0 (cap 0) (cap 0) v h).
      replace (clearBlocks (blockIdx v) 0 (cap 0) (cap 0) v h) with (clearBlocks (blockIdx v) 0 (cap 0) (cap 1) v h)
        by (f_equal; rewrite cap_S, base_S; reflexivity).
      destruct (clearBlocks_ok v ids Rb Rn (blockIdx v) 0 h (content l) Rc) as (h1 & E1 & L1 & C1); [lia| |].
      { intros k o Hk Ho. eapply full_block; eauto. lia. }
      rewrite E1. cbn [bind].
      destruct (current_ok l v ids h1 _ b Rn C1 Hb Hok Hst Hp) as (h2 & E2 & L2 & C2).
      { intros o Ho. cbv beta. destruct (Nat.ltb_spec (blockIdx v) (0 + blockIdx v)); [lia|]. now rewrite andb_false_r. }
      rewrite E2. cbn [bind].
      assert (exists b0, nth_error ids 0 = Some b0) as (b0 & Hb0) by (apply nth_some; lia).
      assert (Hbl : blocks v = (b0, 0) :: tl (blocks v)) by (rewrite Rb; destruct ids; [discriminate|]; cbn in Hb0; injection Hb0 as ->; reflexivity).
      rewrite Hbl. eexists _, _. split; [reflexivity|]. rewrite <- Hbl.
      constructor; auto.
      + eapply cellsAre_ext; [|exact C2]. intros k o Hk Ho. cbv beta.
        replace (content [] k o) with (@None T) by (unfold content; now destruct (base k + o)).
        destruct (Nat.eqb_spec k (blockIdx v)); auto.
        destruct (Nat.leb_spec 0 k), (Nat.ltb_spec k (0 + blockIdx v)); cbn [andb]; auto; try lia.
        eapply free_block; eauto. lia.
      + right. exists b0. cbn. repeat split; auto; change (base 0) with 0; lia.
  Qed.

  (** ** pop_back_n *)
  Lemma content_firstn l m k o : content (firstn m l) k o = if base k + o <? m then content l k o else None.
  Proof. unfold content. apply nth_error_firstn. Qed.

  Lemma popLoop_ok ids : forall fuel l v h n, rep' l v h ids -> 1 <= n <= length l -> n < fuel ->
    exists v' h', popLoop fuel n v h = Some (v', h') /\ rep' (firstn (length l - n) l) v' h' ids.
  Proof.
    induction fuel as [|fuel IH]; intros l v h n R Hn Hf; [lia|].
    pose proof R as [Rb Rn Rc [(-> & -> & ->)|(b & Hb & Hs & Hok & Hst & Hp & He)]]; [cbn in Hn; lia|].
    cbn [popLoop]. rewrite Hp, Hst. unfold pdiff at 1. rewrite Nat.eqb_refl. cbn [Nat.leb andb bind]. rewrite Nat.sub_0_r.
    set (bi := blockIdx v) in *. set (cur := length l - base bi) in *.
    pose proof Hok as [Hok1 Hok2]. assert (HL : length l = base bi + cur) by lia.
    assert (Hlen : forall m, m <= length l -> length (firstn m l) = m) by (intros; rewrite firstn_length; lia).
    destruct (Nat.ltb_spec n cur) as [Hlt|Hge].
    - cbn [fst snd]. destruct (destroy_n_ok n h b (cap bi) (content l bi) (cur - n) (Rc _ _ Hb)) as (h1 & E & B & F); [lia| |].
      { intros j Hj. unfold content. apply nth_error_Some. lia. }
      rewrite E. cbn [bind]. eexists _, _. split; [reflexivity|]. constructor; auto.
      + eapply cells_update; eauto.
        * intros o Ho. cbv beta. rewrite content_firstn.
          destruct (Nat.leb_spec (cur - n) o), (Nat.ltb_spec o (cur - n + n)), (Nat.ltb_spec (base bi + o) (length l - n));
            cbn [andb]; auto; try lia.
          unfold content. apply nth_error_None. lia.
        * intros k' o Hk' Ho. rewrite content_firstn. destruct (Nat.ltb_spec (base k' + o) (length l - n)); auto.
          destruct (lt_eq_lt_dec k' bi) as [[Hk|]|Hk]; [|lia|].
          -- pose proof (base_lt _ _ Hk). lia.
          -- eapply free_block; eauto.
      + right. exists b. cbn [blockIdx size start pos end_]. fold bi. rewrite Hlen by lia.
        repeat split; auto; try lia. do 2 f_equal. lia.
    - destruct (current_ok l v ids h (content l) b Rn Rc Hb Hok Hst Hp) as (h1 & E & L1 & C1); auto.
      rewrite Hst, Hp in E. fold bi cur in E. rewrite E. cbn [bind].
      assert (C1' : cellsAre h1 ids (content (firstn (base bi) l))).
      { eapply cellsAre_ext; [|exact C1]. intros k o Hk Ho. cbv beta. rewrite content_firstn. fold bi.
        destruct (Nat.eqb_spec k bi) as [->|Hne].
        - destruct (Nat.ltb_spec (base bi + o) (base bi)); [lia|auto].
        - destruct (Nat.ltb_spec (base k + o) (base bi)); auto.
          destruct (lt_eq_lt_dec k bi) as [[Hk'|]|Hk']; [|lia|].
          + pose proof (base_lt _ _ Hk'). lia.
          + eapply free_block; eauto. }
      fold bi. destruct (Nat.eqb_spec bi 0) as [E0|E0].
      + assert (Hb0 : nth_error ids 0 = Some b) by (rewrite <- E0; exact Hb).
        rewrite (ids_block v ids _ b Rb Hb0). cbn [bind].
        assert (n = length l) as -> by (rewrite E0 in HL; change (base 0) with 0 in HL; lia).
        assert (Hc0 : length l - cur = 0) by (rewrite E0 in HL; change (base 0) with 0 in HL; lia). rewrite Hc0. cbn [Nat.eqb].
        eexists _, _. split; [reflexivity|]. rewrite Nat.sub_diag. cbn [firstn].
        rewrite E0 in C1'. change (base 0) with 0 in C1'. cbn [firstn] in C1'.
        constructor; auto. right. exists b. cbn. repeat split; auto; change (base 0) with 0; try lia.
      + destruct (previous_ok v ids false b) as (b' & Hb' & Epr); auto; [discriminate|].
        rewrite Epr. cbn [bind]. fold bi in Hb'.
        set (v' := mkSV _ _ _ _ _ _).
        pose proof (base_S (bi - 1)) as HbS. replace (S (bi - 1)) with bi in HbS by lia. pose proof (cap_pos (bi - 1)).
        assert (R' : rep' (firstn (base bi) l) v' h1 ids).
        { constructor; auto. right. exists b'. unfold v'. cbn [blockIdx size start pos end_]. fold bi. rewrite Hlen by lia.
          repeat split; auto; try lia. unfold padd. cbn. do 2 f_equal. lia. }
        destruct (Nat.eqb_spec (n - cur) 0) as [En|En].
        * eexists _, _. split; [reflexivity|]. replace (length l - n) with (base bi) by lia. exact R'.
        * destruct (IH _ _ _ (n - cur) R') as (v2 & h2 & E2 & R2); [rewrite Hlen by lia; lia|lia|].
          exists v2, h2. split; auto. rewrite Hlen in R2 by lia. rewrite firstn_firstn in R2.
          replace (Nat.min (base bi - (n - cur)) (base bi)) with (length l - n) in R2 by lia. exact R2.
  Qed.

  Lemma popn_ok l v h ids n : rep' l v h ids -> n <= length l ->
    exists v' h', pop_back_n n v h = Some (v', h') /\ rep' (firstn (length l - n) l) v' h' ids.
  Proof.
    intros R Hn. unfold pop_back_n.
    assert (Hs : size v = length l).
    { destruct R as [_ _ _ [(-> & -> & ->)|(b & _ & -> & _)]]; reflexivity. }
    rewrite Hs. destruct (Nat.leb_spec n (length l)); [|lia]. cbn [guard bind].
    destruct (Nat.eqb_spec n 0) as [->|H0].
    - exists v, h. split; auto. rewrite Nat.sub_0_r, firstn_all. exact R.
    - apply popLoop_ok; auto; lia.
  Qed.

  (** ** shrink_to_fit *)
  Lemma freeBlocks_ok : forall rest h i c,
    NoDup rest -> (forall k b, nth_error rest k = Some b -> blk h b (cap (S (i + k))) (c k)) ->
    (forall k o, o < cap (S (i + k)) -> c k o = None) ->
    exists h', freeBlocks (map mkp rest) (cap (S i)) h = Some h' /\ length h' = length h /\
      (forall b, ~ In b rest -> nth_error h' b = nth_error h b) /\
      (forall b, In b rest -> nth_error h' b = Some None).
  Proof.
    induction rest as [|b rest IH]; intros h i c Hn Hc Hf.
    - exists h. cbn. repeat split; auto. contradiction.
    - cbn [map freeBlocks]. inversion Hn; subst.
      destruct (deallocate_ok h b (cap (S i)) (c 0)) as (h1 & E & F & Z).
      { specialize (Hc 0 b eq_refl). now rewrite Nat.add_0_r in Hc. }
      { intros o Ho. apply Hf. now rewrite Nat.add_0_r. }
      unfold mkp at 1. rewrite E. cbn [bind]. rewrite <- cap_double.
      destruct (IH h1 (S i) (fun k => c (S k))) as (h2 & E2 & L2 & O2 & Z2); auto.
      { intros k b' Hk. replace (S (S i + k)) with (S (i + S k)) by lia.
        eapply blk_frame; [exact F| |apply Hc; exact Hk]. intros ->. apply H1. eapply nth_error_In; eauto. }
      { intros k o Ho. apply Hf. now replace (S (i + S k)) with (S (S i + k)) by lia. }
      exists h2. split; auto. split; [destruct F; lia|]. split.
      + intros b' Hb'. cbn in Hb'. rewrite O2 by tauto. apply F. intros ->. tauto.
      + intros b' [<-|Hb']; auto. rewrite O2 by auto. auto.
  Qed.

  Lemma skipn_map {A B} (f : A -> B) n : forall xs : list A, skipn n (map f xs) = map f (skipn n xs).
  Proof. induction n; intros [|]; cbn; auto. Qed.
  Lemma firstn_map' {A B} (f : A -> B) n : forall xs : list A, firstn n (map f xs) = map f (firstn n xs).
  Proof. induction n; intros [|]; cbn; f_equal; auto. Qed.
  Lemma nth_error_skipn {A} n : forall (xs : list A) k, nth_error (skipn n xs) k = nth_error xs (n + k).
  Proof. induction n; intros [|] k; cbn; auto. now destruct k. Qed.
  Lemma NoDup_split_ids (ids : list nat) n : NoDup ids ->
    NoDup (firstn n ids) /\ NoDup (skipn n ids) /\ forall b, In b (firstn n ids) -> ~ In b (skipn n ids).
  Proof.
    intros Hn. rewrite <- (firstn_skipn n ids) in Hn. revert Hn. generalize (firstn n ids) (skipn n ids).
    induction l as [|x l IH]; intros l0 Hn; cbn in *.
    - repeat split; auto. constructor.
    - inversion Hn; subst. destruct (IH _ H2) as (A & B & C). rewrite in_app_iff in H1.
      split; [constructor; tauto|]. split; auto. intros b [<-|Hb]; auto.
  Qed.

  Lemma shrink_ok l v h ids : rep' l v h ids -> l <> [] \/ length ids <= 1 ->
    exists v' h' ids', shrink_to_fit v h = Some (v', h') /\ rep' l v' h' ids' /\
      (exists n, ids' = firstn n ids) /\ (l <> [] -> length ids' = blockIdx v + 1).
  Proof.
    intros R Hne. pose proof R as [Rb Rn Rc Rs]. unfold shrink_to_fit.
    assert (Hlen : length (blocks v) = length ids) by (rewrite Rb; apply map_length). rewrite Hlen.
    destruct Rs as [(-> & -> & ->)|(b & Hb & Hs & Hok & Hst & Hp & He)].
    { cbn. eexists _, _, []. split; [reflexivity|]. split; auto. split; [exists 0; auto|]. intros X; congruence. }
    assert (Hbi : blockIdx v < length ids) by (apply nth_error_Some; congruence).
    destruct (Nat.eqb_spec (length ids) 0); [lia|]. cbn [orb].
    destruct (Nat.eqb_spec (blockIdx v) (length ids - 1)) as [E|E].
    { exists v, h, ids. split; [reflexivity|]. split; auto. split; [exists (length ids); now rewrite firstn_all|]. intros _. lia. }
    assert (Hl : l <> []) by (destruct Hne; auto; lia).
    rewrite Hs. destruct (Nat.eqb_spec (length l) 0) as [E0|E0]; [destruct l; [congruence|discriminate]|].
    cbn [bind]. rewrite Rb, skipn_map. rewrite <- cap_pow.
    destruct (NoDup_split_ids ids (blockIdx v + 1) Rn) as (N1 & N2 & N3).
    destruct (freeBlocks_ok (skipn (blockIdx v + 1) ids) h (blockIdx v) (fun k => content l (S (blockIdx v + k)))) as (h' & E' & L' & O' & _); auto.
    { intros k b' Hk. apply Rc. rewrite nth_error_skipn in Hk. now replace (S (blockIdx v + k)) with (blockIdx v + 1 + k) by lia. }
    { intros k o Ho. eapply free_block; eauto. lia. }
    rewrite E'. cbn [bind]. eexists _, _, (firstn (blockIdx v + 1) ids). split; [reflexivity|].
    split; [constructor; auto|split; eauto].
    - cbn [blocks]. rewrite firstn_map'. reflexivity.
    - intros k b' Hk. assert (Hin := nth_error_In _ _ Hk). rewrite nth_error_firstn in Hk.
      destruct (Nat.ltb_spec k (blockIdx v + 1)); [|discriminate].
      eapply blk_same; [|apply Rc; exact Hk]. apply O'. auto.
    - right. exists b. cbn [blockIdx size start pos end_]. rewrite nth_error_firstn.
      destruct (Nat.ltb_spec (blockIdx v) (blockIdx v + 1)); [|lia]. auto 8.
    - intros _. rewrite firstn_length. lia.
  Qed.

  Lemma shrink_frees l v h ids v' h' : rep' l v h ids -> l <> [] -> shrink_to_fit v h = Some (v', h') ->
    forall p, In p (skipn (blockIdx v + 1) (blocks v)) -> nth_error h' (fst p) = Some None.
  Proof.
    intros R Hl E p Hp. pose proof R as [Rb Rn Rc [(_ & -> & _)|(b & Hb & Hs & Hok & Hst & Hpp & He)]]; [congruence|].
    unfold shrink_to_fit in E.
    assert (Hlen : length (blocks v) = length ids) by (rewrite Rb; apply map_length). rewrite Hlen in E.
    assert (Hbi : blockIdx v < length ids) by (apply nth_error_Some; congruence).
    destruct (Nat.eqb_spec (length ids) 0); [lia|]. cbn [orb] in E.
    destruct (Nat.eqb_spec (blockIdx v) (length ids - 1)) as [Eq|Eq].
    { rewrite skipn_all2 in Hp by lia. contradiction. }
    rewrite Hs in E. destruct (Nat.eqb_spec (length l) 0) as [E0|E0]; [destruct l; [congruence|discriminate]|].
    cbn [bind] in E. rewrite Rb, skipn_map in E, Hp. rewrite <- cap_pow in E.
    destruct (NoDup_split_ids ids (blockIdx v + 1) Rn) as (N1 & N2 & N3).
    destruct (freeBlocks_ok (skipn (blockIdx v + 1) ids) h (blockIdx v) (fun k => content l (S (blockIdx v + k)))) as (h1 & E1 & L' & O' & Z'); auto.
    { intros k b' Hk. apply Rc. rewrite nth_error_skipn in Hk. now replace (S (blockIdx v + k)) with (blockIdx v + 1 + k) by lia. }
    { intros k o Ho. eapply free_block; eauto. lia. }
    rewrite E1 in E. cbn [bind] in E. injection E as <- <-. apply in_map_iff in Hp as (b' & <- & Hb'). apply Z'. exact Hb'.
  Qed.

  (** ** sequences *)
  Lemma subscript_blocks v v' i : blocks v = blocks v' -> subscript i v = subscript i v'.
  Proof. intros E. unfold subscript. now rewrite E. Qed.

  Lemma subscript_prefix ids more v v' i : blocks v = map mkp ids -> blocks v' = map mkp (ids ++ more) ->
    forall p, subscript i v = Some p -> subscript i v' = Some p.
  Proof.
    intros Hb Hb' p. destruct (locate i) as (k & o & -> & Ho).
    rewrite (subscript_ok ids), (subscript_ok (ids ++ more)) by auto.
    destruct (nth_error ids k) as [b|] eqn:E; [|discriminate]. intros [= <-].
    rewrite nth_error_app1 by (apply nth_error_Some; congruence). now rewrite E.
  Qed.
  Lemma subscript_cut ids n v v' i : blocks v = map mkp ids -> blocks v' = map mkp (firstn n ids) ->
    forall p, subscript i v' = Some p -> subscript i v = Some p.
  Proof.
    intros Hb Hb' p. apply (subscript_prefix (firstn n ids) (skipn n ids)); auto.
    now rewrite firstn_skipn.
  Qed.

  Definition safe (o : op T) (v : @sv) : Prop :=
    match o with Shrink => size v <> 0 \/ length (blocks v) <= 1 | _ => True end.

  Lemma rep_size l v h : rep l v h -> size v = length l.
  Proof. intros (ids & [_ _ _ [(-> & -> & ->)|(b & _ & -> & _)]]); reflexivity. Qed.

  Lemma step_ok o l l' v h : rep l v h -> apply o l = Some l' -> safe o v ->
    exists v' h', step o (v, h) = Some (v', h') /\ rep l' v' h' /\
      forall i, i < length l -> i < length l' -> subscript i v' = subscript i v.
  Proof.
    intros R Ha Hsafe. pose proof (rep_size _ _ _ R) as Hsz. pose proof R as (ids & R0).
    assert (Hdef : forall i, i < length l -> exists p, subscript i v = Some p).
    { intros i Hi. destruct (nth_some l i Hi) as (x & Hx). destruct (rep_index _ _ _ _ _ R Hx) as (p & Hp & _). eauto. }
    destruct o; cbn [apply] in Ha; cbn [step].
    - injection Ha as <-. destruct (emplace_ok _ _ _ _ x R0) as (p & v' & h' & ids' & E & R' & (more & ->) & _).
      rewrite E. cbn [bind]. exists v', h'. split; auto. split; [eexists; eauto|].
      intros i Hi _. destruct (Hdef i Hi) as (q & Hq). rewrite Hq.
      eapply subscript_prefix; [apply R0|apply R'|exact Hq].
    - destruct l as [|y l0]; [discriminate|]. injection Ha as <-.
      assert (Hl : y :: l0 = removelast (y :: l0) ++ [last (y :: l0) y]) by (apply app_removelast_last; discriminate).
      set (l1 := removelast (y :: l0)) in *. rewrite Hl in R0.
      destruct (pop_ok _ _ _ _ _ R0) as (v' & h' & E & R'). exists v', h'. split; auto. split; [eexists; eauto|].
      intros i _ _. apply subscript_blocks. rewrite (r_blocks _ _ _ _ R0), (r_blocks _ _ _ _ R'). reflexivity.
    - destruct (Nat.leb_spec n (length l)); [|discriminate]. injection Ha as <-.
      destruct (popn_ok _ _ _ _ n R0) as (v' & h' & E & R'); auto. exists v', h'. split; auto. split; [eexists; eauto|].
      intros i _ _. apply subscript_blocks. rewrite (r_blocks _ _ _ _ R0), (r_blocks _ _ _ _ R'). reflexivity.
    - injection Ha as <-. destruct (clear_ok _ _ _ _ R0) as (v' & h' & E & R'). exists v', h'. split; auto. split; [eexists; eauto|].
      intros i _ Hi. cbn in Hi. lia.
    - injection Ha as <-. cbn [safe] in Hsafe. assert (Hlen : length (blocks v) = length ids) by (rewrite (r_blocks _ _ _ _ R0); apply map_length).
      destruct (shrink_ok _ _ _ _ R0) as (v' & h' & ids' & E & R' & (n & ->) & _).
      { destruct Hsafe; [left|right; lia]. intros ->. cbn in Hsz. lia. }
      exists v', h'. split; auto. assert (Hr : rep l v' h') by (eexists; eauto). split; auto.
      intros i Hi _. destruct (nth_some l i Hi) as (x & Hx).
      destruct (rep_index _ _ _ _ _ Hr Hx) as (p & Hp & _). rewrite Hp. symmetry.
      eapply subscript_cut; [apply R0|apply R'|exact Hp].
  Qed.

  Lemma noShrink_nonempty os : Forall noShrink os -> forall l : list T, shrinkNonempty os l.
  Proof.
    induction 1 as [|o os Ho Hos IH]; intros l; cbn; auto. split; [destruct o; cbn in *; tauto|].
    destruct (apply o l); auto.
  Qed.

  Lemma run_ok os : forall l l' v h, rep l v h -> shrinkNonempty os l -> applyAll os l = Some l' ->
    exists v' h', run os (v, h) = Some (v', h') /\ rep l' v' h'.
  Proof.
    induction os as [|o os IH]; intros l l' v h R Hn Ha; cbn [applyAll] in Ha.
    - injection Ha as <-. cbn. eauto.
    - cbn [shrinkNonempty] in Hn. destruct Hn as [Ho Hn].
      destruct (apply o l) as [l1|] eqn:E; [|discriminate].
      destruct (step_ok o l l1 v h R E) as (v1 & h1 & E1 & R1 & _).
      { destruct o; cbn in *; auto. left. rewrite (rep_size _ _ _ R). destruct l; [congruence|discriminate]. }
      cbn [run]. rewrite E1. cbn [bind]. eauto.
  Qed.

  (** the address of an element that stays *)
  Lemma stays_ok os : forall i l v h, rep l v h -> shrinkNonempty os l -> stays i os l ->
    exists v' h', run os (v, h) = Some (v', h') /\ subscript i v' = subscript i v.
  Proof.
    induction os as [|o os IH]; intros i l v h R Hn Hs; cbn [stays] in Hs; destruct Hs as [Hi Hs].
    - cbn. eauto.
    - cbn [shrinkNonempty] in Hn. destruct Hn as [Ho Hn].
      destruct (apply o l) as [l1|] eqn:E; [|contradiction].
      destruct (step_ok o l l1 v h R E) as (v1 & h1 & E1 & R1 & A1).
      { destruct o; cbn in *; auto. left. rewrite (rep_size _ _ _ R). destruct l; [congruence|discriminate]. }
      cbn [run]. rewrite E1. cbn [bind]. destruct (IH i l1 v1 h1 R1 Hn Hs) as (v' & h' & E' & A').
      exists v', h'. split; auto. rewrite A'. apply A1; auto. destruct os; apply Hs.
  Qed.
  Lemma stays_applyAll os : forall i (l : list T), stays i os l -> exists l', applyAll os l = Some l' /\ i < length l'.
  Proof.
    induction os as [|o os IH]; intros i l Hs; cbn [stays applyAll] in *; destruct Hs as [Hi Hs]; eauto.
    destruct (apply o l); [auto|contradiction].
  Qed.

  Lemma addr_inj l v h i j p : rep l v h -> i < length l -> j < length l ->
    subscript i v = Some p -> subscript j v = Some p -> i = j.
  Proof.
    intros (ids & R) Hi Hj. destruct (locate i) as (k & o & -> & Ho), (locate j) as (k' & o' & -> & Ho').
    rewrite !(subscript_ok ids) by (auto; apply R).
    destruct (nth_error ids k) as [b|] eqn:E; [|discriminate]. intros [= <-].
    destruct (nth_error ids k') as [b'|] eqn:E'; [|discriminate]. intros [= -> ->].
    assert (k = k') by (eapply nodup_nth; eauto; apply R). congruence.
  Qed.

  Lemma front_ok l v h x : rep (x :: l) v h -> exists p, front v = Some p /\ read p h = Some x /\ subscript 0 v = Some p.
  Proof.
    intros R. destruct (rep_index _ _ _ 0 x R eq_refl) as (p & Hp & Hr). exists p.
    pose proof (rep_size _ _ _ R) as Hs. unfold front. rewrite Hs. cbn [length Nat.eqb negb guard bind].
    assert (E : subscript 0 v = nth_error (blocks v) 0).
    { destruct R as (ids & R). change 0 with (base 0 + 0) at 1. pose proof (cap_pos 0).
      rewrite (subscript_ok ids) by (auto; apply R). rewrite (r_blocks _ _ _ _ R), nth_error_map. reflexivity. }
    rewrite <- E. auto.
  Qed.
  Lemma back_ok l v h x : rep (l ++ [x]) v h ->
    exists p, back v = Some p /\ read p h = Some x /\ subscript (length l) v = Some p.
  Proof.
    intros (ids & [Rb Rn Rc [(_ & E & _)|(b & Hb & Hs & [Hok1 Hok2] & Hst & Hp & He)]]); [now destruct l|].
    rewrite app_length in *. cbn [length] in *. set (bi := blockIdx v) in *.
    assert (Hle : base bi <= length l).
    { destruct Hok2 as [->|]; [change (base 0) with 0|]; lia. }
    unfold back. rewrite Hs. destruct (Nat.eqb_spec (length l + 1) 0); [lia|]. cbn [negb guard bind].
    rewrite Hp. cbn [bind fst snd]. destruct (Nat.ltb_spec 0 (length l + 1 - base bi)); [|lia]. cbn [guard bind].
    eexists. split; [reflexivity|]. split.
    - eapply read_ok; [apply Rc; exact Hb|lia|]. rewrite content_snoc.
      destruct (Nat.eqb_spec (base bi + (length l + 1 - base bi - 1)) (length l)); [auto|lia].
    - replace (length l) with (base bi + (length l - base bi)) at 1 by lia.
      rewrite (subscript_ok ids) by (auto; lia). rewrite Hb.
      replace (length l + 1 - base bi - 1) with (length l - base bi) by lia. reflexivity.
  Qed.

  (** ** iteration *)
  Definition iterAt ids l v (k o : nat) (i : iter) : Prop :=
    exists b, nth_error ids k = Some b /\ o < cap k /\ base k + o < length l /\
      it i = Some (b, o) /\
      itEnd i = (if k =? blockIdx v then pos v else Some (b, cap k)) /\
      outer i = k /\ outerEnd i = blockIdx v + 1 /\ total i = (if k =? blockIdx v then total i else cap (S k)) /\ ipos i = pos v.

  Lemma walk_ok l v h ids : rep' l v h ids -> l <> [] -> forall fuel k o i, iterAt ids l v k o i ->
    length l - (base k + o) < fuel ->
    walk fuel v i h = Some (skipn (base k + o) l).
  Proof.
    intros R Hl. pose proof R as [Rb Rn Rc [(_ & E & _)|(b & Hb & Hs & Hok & Hst & Hp & He)]]; [congruence|].
    pose proof Hok as [Hok1 Hok2]. set (bi := blockIdx v) in *.
    assert (Hbi : bi < length ids) by (apply nth_error_Some; congruence).
    induction fuel as [|fuel IH]; intros k o i Hi Hf; [lia|].
    destruct Hi as (b' & Hb' & Ho & Hlt & I1 & I2 & I3 & I4 & I5 & I6). cbn [walk]. rewrite I1.
    destruct (nth_some l (base k + o) Hlt) as (x & Hx).
    rewrite (read_ok h b' (cap k) (content l k) o x) by (auto; apply Rc; auto). cbn [bind].
    assert (Hsk : skipn (base k + o) l = x :: skipn (base k + (o + 1)) l).
    { rewrite Nat.add_assoc, Nat.add_1_r. clear - Hx. revert l Hx. generalize (base k + o) as n.
      induction n as [|n IHn]; intros [|y l] Hx; cbn in Hx; try discriminate.
      - injection Hx as <-. reflexivity.
      - cbn [skipn]. now apply IHn. }
    assert (Hk : k <= bi) by (eapply idx_bound; eauto).
    unfold next. rewrite I1. cbn [bind]. unfold padd at 1 2. cbn [fst snd]. rewrite I2, I3, I4, I6. fold bi in I2, I5 |- *.
    destruct (Nat.eq_dec k bi) as [->|Hkb].
    - rewrite Nat.eqb_refl. fold bi in Hp. rewrite Hp. assert (b' = b) by congruence. subst b'.
      destruct (Nat.eq_dec (base bi + (o + 1)) (length l)) as [El|El].
      + replace (length l - base bi) with (o + 1) by lia. rewrite eqb_refl. cbn [negb].
        replace (bi + 1 - 1) with bi by lia. rewrite Nat.eqb_refl. cbn [bind].
        destruct fuel; [lia|]. cbn [walk it bind]. rewrite Hsk. rewrite El, skipn_all. reflexivity.
      + rewrite eqb_ptr_neq by (intros [= E1]; lia). cbn [negb bind].
        rewrite (IH bi (o + 1)); [|exists b; cbn; fold bi; rewrite Nat.eqb_refl; repeat split; auto; lia|lia].
        cbn [bind]. now rewrite Hsk.
    - assert (Hkne : k =? bi = false) by (now apply Nat.eqb_neq). rewrite Hkne in I2, I5 |- *. rewrite I5.
      destruct (Nat.eq_dec (o + 1) (cap k)) as [Ec|Ec].
      + rewrite Ec, eqb_refl. cbn [negb]. replace (bi + 1 - 1) with bi by lia. rewrite Hkne.
        destruct (nth_some ids (k + 1)) as (b1 & Hb1); [lia|]. rewrite (ids_block v ids _ b1 Rb Hb1). cbn [bind].
        assert (Hbase : base (k + 1) = base k + (o + 1)) by (rewrite Nat.add_1_r, base_S; lia).
        pose proof (base_lt k bi ltac:(lia)) as Hbl. pose proof (base_mono (k + 1) bi ltac:(lia)) as Hbm.
        assert (Hnl : base (k + 1) < length l).
        { destruct Hok2 as [|]; [lia|]. lia. }
        destruct (Nat.eqb_spec (k + 1) bi) as [Ek|Ek]; cbn [bind].
        * rewrite (IH (k + 1) 0); [| |lia].
          -- cbn [bind]. rewrite Hsk, Hbase, Nat.add_0_r. reflexivity.
          -- exists b1. cbn. fold bi. pose proof (cap_pos (k + 1)). replace (k + 1 =? bi) with true by (symmetry; now apply Nat.eqb_eq).
             repeat split; auto; lia.
        * rewrite (IH (k + 1) 0); [| |lia].
          -- cbn [bind]. rewrite Hsk, Hbase, Nat.add_0_r. reflexivity.
          -- apply Nat.eqb_neq in Ek. exists b1. cbn. fold bi. rewrite Ek. pose proof (cap_pos (k + 1)).
             replace (k + 1) with (S k) in * by lia. unfold padd. cbn.
             repeat split; auto; try lia. now rewrite cap_double.
      + rewrite eqb_ptr_neq by (intros [= E1]; lia). cbn [negb bind].
        rewrite (IH k (o + 1)); [|exists b'; cbn; fold bi; rewrite Hkne; repeat split; auto; try lia|lia].
        * cbn [bind]. now rewrite Hsk.
        * pose proof (base_lt k bi ltac:(lia)). lia.
  Qed.

  Lemma elements_ok l v h : rep l v h -> elements v h = Some l.
  Proof.
    intros R. pose proof (rep_size _ _ _ R) as Hsz. destruct R as (ids & R). unfold elements, begin. rewrite Hsz.
    destruct l as [|x l]; [reflexivity|].
    pose proof R as [Rb Rn Rc [(_ & E & _)|(b & Hb & Hs & Hok & Hst & Hp & He)]]; [discriminate|].
    assert (Hbi : blockIdx v < length ids) by (apply nth_error_Some; congruence).
    destruct (nth_some ids 0) as (b0 & Hb0); [lia|]. cbn [length Nat.eqb]. rewrite (ids_block v ids _ b0 Rb Hb0). cbn [bind].
    match goal with |- _ = Some ?r => change (Some r) with (Some (skipn (base 0 + 0) r)) end.
    apply walk_ok with (ids := ids); auto; [discriminate| |change (base 0 + 0) with 0; cbn [length]; lia].
    exists b0. cbn [it itEnd outer outerEnd total ipos]. pose proof (cap_pos 0). rewrite (Nat.eqb_sym 0 (blockIdx v)).
    repeat split; auto; try (change (base 0) with 0; cbn [length]; lia); destruct (blockIdx v =? 0); auto; rewrite cap_S, base_S; reflexivity.
  Qed.

  (** ** copy *)
  Lemma copy_n_ok n : forall h b q c c' f g o, blk h b c f -> blk h q c' g -> b <> q ->
    o + n <= c -> o + n <= c' -> (forall j, o <= j < o + n -> f j <> None /\ g j = None) ->
    exists h', copy_n (b, o) n (q, o) h = Some h' /\
      blk h' q c' (fun j => if (o <=? j) && (j <? o + n) then f j else g j) /\ frame h h' q.
  Proof.
    induction n as [|n IH]; intros h b q c c' f g o Hb Hq Hne Hc Hc' Hf.
    - exists h. split; [reflexivity|]. split; [|apply frame_refl]. eapply blk_ext; [|exact Hq].
      intros j Hj. cbv beta. destruct (Nat.leb_spec o j), (Nat.ltb_spec j (o + 0)); cbn; auto; lia.
    - cbn [copy_n]. destruct (Hf o) as [Hfo Hgo]; [lia|]. destruct (f o) as [x|] eqn:Ex; [|congruence].
      rewrite (read_ok h b c f o x) by (auto; lia). cbn [bind].
      destruct (construct_ok h q c' g o x Hq) as (h1 & E & B1 & F1); [lia|auto|].
      rewrite E. cbn [bind]. unfold padd. cbn [fst snd].
      destruct (IH h1 b q c c' f _ (o + 1) (blk_frame _ _ _ _ _ _ F1 Hne Hb) B1) as (h2 & E2 & B2 & F2); try lia; auto.
      { intros j Hj. unfold fset. destruct (Nat.eqb_spec j o); [lia|]. apply Hf. lia. }
      exists h2. split; auto. split; [|eapply frame_trans; eauto].
      eapply blk_ext; [|exact B2]. intros j Hj. cbv beta. unfold fset.
      destruct (Nat.leb_spec (o + 1) j), (Nat.ltb_spec j (o + 1 + n)), (Nat.leb_spec o j), (Nat.ltb_spec j (o + S n)),
        (Nat.eqb_spec j o); cbn; subst; auto; lia.
  Qed.

  (** memory that existed before is untouched *)
  Definition older h h' : Prop := length h <= length h' /\ forall b, b < length h -> nth_error h' b = nth_error h b.
  Lemma older_refl h : older h h.
  Proof. split; auto. Qed.
  Lemma older_trans h1 h2 h3 : older h1 h2 -> older h2 h3 -> older h1 h3.
  Proof. intros [A B] [C D]. split; [lia|]. intros b Hb. rewrite D, B; auto. lia. Qed.
  Lemma older_blk h h' b c f : older h h' -> blk h b c f -> blk h' b c f.
  Proof. intros [_ O] Hb. eapply blk_same; [|exact Hb]. apply O. eapply blk_lt; eauto. Qed.
  Lemma older_rep l v h h' ids : older h h' -> rep' l v h ids -> rep' l v h' ids.
  Proof. intros O [A B C D]. constructor; auto. intros k b Hk. eapply older_blk; eauto. Qed.

  (** a new block into which [n] elements of block [b] are copied *)
  Lemma copyBlock_ok h b c f n : blk h b c f -> n <= c -> (forall j, j < n -> f j <> None) -> (forall j, n <= j < c -> f j = None) ->
    exists h', (let (q, h1) := allocate c h in copy_n (b, 0) n q h1) = Some h' /\
      blk h' (length h) c f /\ older h h' /\ length h' = S (length h).
  Proof.
    intros Hb Hn Hf Hf'. unfold allocate. set (h1 := h ++ _).
    assert (O1 : older h h1).
    { split; [unfold h1; rewrite app_length; cbn; lia|]. intros b' Hb'. now apply allocate_other. }
    destruct (copy_n_ok n h1 b (length h) c c f (fun _ => None) 0) as (h2 & E & B & F).
    - eapply older_blk; eauto.
    - apply allocate_blk.
    - pose proof (blk_lt _ _ _ _ Hb). lia.
    - lia.
    - lia.
    - intros j Hj. split; auto. apply Hf. lia.
    - exists h2. split; auto. split; [|split].
      + eapply blk_ext; [|exact B]. intros j Hj. cbv beta.
        destruct (Nat.leb_spec 0 j), (Nat.ltb_spec j (0 + n)); cbn [andb]; auto; try lia. symmetry. apply Hf'. lia.
      + destruct F as [L F]. split; [destruct O1; lia|]. intros b' Hb'. rewrite F by lia. now apply O1.
      + destruct F as [L _]. rewrite L. unfold h1. rewrite app_length. cbn. lia.
  Qed.

  Lemma copyFull_ok l v ids h0 : rep' l v h0 ids -> okIdx (blockIdx v) (length l) ->
    forall k i acc h, i + k = blockIdx v -> k + i < length ids -> older h0 h -> length acc = i ->
    length h = length h0 + i -> acc = seq (length h0) i ->
    (forall j b, nth_error acc j = Some b -> blk h b (cap j) (content l j)) ->
    exists h', copyFull k i (cap i) (cap (S i)) v (map mkp acc) h =
        Some (map mkp (seq (length h0) (i + k)), cap (i + k), h') /\
      older h0 h' /\ length h' = length h0 + (i + k) /\
      (forall j b, nth_error (seq (length h0) (i + k)) j = Some b -> blk h' b (cap j) (content l j)).
  Proof.
    intros R Hok. induction k as [|k IH]; intros i acc h Hik Hlen O La Lh Hacc Hc.
    - rewrite Nat.add_0_r. exists h. cbn [copyFull]. subst acc. auto.
    - cbn [copyFull]. destruct (nth_some ids i) as (b & Hb); [lia|].
      assert (Hblk : blk h b (cap i) (content l i)) by (eapply older_blk; [exact O|]; now apply R).
      destruct (copyBlock_ok h b (cap i) (content l i) (cap i) Hblk) as (h' & E & B & O' & L'); auto; try lia.
      { intros j Hj. apply (full_block l v); auto. lia. }
      unfold allocate in E |- *. rewrite (ids_block v ids _ b (r_blocks _ _ _ _ R) Hb). cbn [bind].
      unfold mkp at 1. rewrite E. cbn [bind]. rewrite <- cap_double. rewrite Nat.add_1_r.
      change [(length h, 0)] with (map mkp [length h]). rewrite <- map_app.
      destruct (IH (S i) (acc ++ [length h]) h') as (h2 & E2 & O2 & L2 & C2); auto; try lia.
      + eapply older_trans; eauto.
      + rewrite app_length. cbn. lia.
      + rewrite Hacc, Lh. replace (S i) with (i + 1) by lia. rewrite seq_app. reflexivity.
      + intros j b' Hj. rewrite nth_error_snoc in Hj. destruct (Nat.eqb_spec j (length acc)) as [->|Hj'].
        * injection Hj as <-. rewrite La. exact B.
        * eapply older_blk; [exact O'|]. now apply Hc.
      + exists h2. replace (i + S k) with (S i + k) by lia. auto.
  Qed.

  Lemma copy_ok l v h : rep l v h ->
    exists v' h', copy v h = Some (v', h') /\
      (exists ids, rep' l v' h' ids /\ forall b, In b ids -> length h <= b) /\ rep l v h' /\ older h h' /\
      (forall p q i j, subscript i v = Some p -> subscript j v' = Some q -> i < length l -> j < length l -> fst p <> fst q).
  Proof.
    intros R. pose proof (rep_size _ _ _ R) as Hsz. destruct R as (ids & R). unfold copy. rewrite Hsz.
    destruct (Nat.eqb_spec (length l) 0) as [E0|E0].
    - assert (El : l = []) by (destruct l; [auto|discriminate]). exists empty, h.
      assert (Hbi : blockIdx v = 0).
      { destruct R as [_ _ _ [(_ & _ & ->)|(b & _ & _ & [_ [|Hok]] & _)]]; auto. lia. }
      rewrite Hbi, E0. split; [reflexivity|]. subst l. split.
      { exists []. split; [|intros b []]. constructor; auto; [constructor|]. intros [|]; discriminate. }
      split; [exists ids; auto|].
      split; [apply older_refl|]. cbn. lia.
    - pose proof R as [Rb Rn Rc [(_ & -> & _)|(b & Hb & Hs & Hok & Hst & Hp & He)]]; [cbn in E0; lia|].
      assert (Hbi : blockIdx v < length ids) by (apply nth_error_Some; congruence).
      change (copyFull (blockIdx v) 0 IC IC v [] h) with (copyFull (blockIdx v) 0 (cap 0) (cap 0) v (map mkp []) h).
      replace (copyFull (blockIdx v) 0 (cap 0) (cap 0) v (map mkp []) h) with (copyFull (blockIdx v) 0 (cap 0) (cap 1) v (map mkp []) h)
        by (f_equal; rewrite cap_S, base_S; reflexivity).
      destruct (copyFull_ok l v ids h R Hok (blockIdx v) 0 [] h) as (h1 & E1 & O1 & L1 & C1); auto; try (cbn; lia).
      { apply older_refl. }
      { intros [|j] b'; discriminate. }
      rewrite E1. cbn [bind]. cbn [Nat.add] in *. set (bi := blockIdx v) in *.
      pose proof Hok as [Hok1 Hok2].
      assert (Hblk : blk h1 b (cap bi) (content l bi)) by (eapply older_blk; [exact O1|]; now apply R).
      destruct (copyBlock_ok h1 b (cap bi) (content l bi) (length l - base bi) Hblk) as (h2 & E2 & B2 & O2 & L2); [lia| | |].
      { intros j Hj. unfold content. apply nth_error_Some. lia. }
      { intros j Hj. unfold content. apply nth_error_None. lia. }
      unfold allocate in E2 |- *. rewrite Hp, Hst. unfold pdiff. rewrite Nat.eqb_refl. cbn [Nat.leb andb bind]. rewrite Nat.sub_0_r.
      rewrite E2. cbn [bind]. eexists _, _. split; [reflexivity|].
      assert (O : older h h2) by (eapply older_trans; eauto).
      assert (R' : rep' l (mkSV (map mkp (seq (length h) bi) ++ [(length h1, 0)]) (Some (length h1, 0))
          (Some (padd (length h1, 0) (length l - base bi))) (Some (padd (length h1, 0) (cap bi))) (length l) bi) h2
          (seq (length h) (S bi))).
      { constructor.
        - cbn [blocks]. replace (S bi) with (bi + 1) by lia. rewrite seq_app, map_app. cbn. now rewrite L1.
        - apply seq_NoDup.
        - intros k b' Hk. replace (S bi) with (bi + 1) in Hk by lia. rewrite seq_app in Hk.
          cbn [seq] in Hk. rewrite nth_error_snoc, seq_length in Hk. destruct (Nat.eqb_spec k bi) as [->|Hne].
          + injection Hk as <-. rewrite <- L1. exact B2.
          + eapply older_blk; [exact O2|]. now apply C1.
        - right. exists (length h1). cbn [blockIdx size start pos end_]. refine (conj _ (conj eq_refl (conj Hok (conj eq_refl (conj eq_refl eq_refl))))).
         
          replace (S bi) with (bi + 1) by lia. rewrite seq_app. cbn [seq]. rewrite nth_error_snoc, seq_length, Nat.eqb_refl. now rewrite L1. }
      split; [eexists; split; [exact R'|]; intros b0 Hb0; apply in_seq in Hb0; lia|].
      split; [exists ids; eapply older_rep; eauto|]. split; auto.
      intros p q i j Hi Hj Hil Hjl Heq.
      destruct (locate i) as (k & o & -> & Ho), (locate j) as (k' & o' & -> & Ho').
      rewrite (subscript_ok ids) in Hi by (auto; apply R).
      rewrite (subscript_ok (seq (length h) (S bi))) in Hj by (auto; apply R').
      destruct (nth_error ids k) as [b1|] eqn:Eb1; [|discriminate]. injection Hi as <-.
      destruct (nth_error (seq (length h) (S bi)) k') as [b2|] eqn:Eb2; [|discriminate]. injection Hj as <-.
      cbn in Heq. subst b2. apply nth_error_In, in_seq in Eb2.
      pose proof (blk_lt _ _ _ _ (Rc _ _ Eb1)). lia.
  Qed.

  (** ** equality *)
  Section Eq.
    Context (teq : T -> T -> bool) (Hteq : forall x y, teq x y = true <-> x = y).

    Lemma equalRange_ok n : forall h b q c f g o, blk h b c f -> blk h q c g -> o + n <= c ->
      (forall j, o <= j < o + n -> f j <> None /\ g j <> None) ->
      exists r, equalRange teq (b, o) n (q, o) h = Some r /\ (r = true <-> forall j, o <= j < o + n -> f j = g j).
    Proof.
      induction n as [|n IH]; intros h b q c f g o Hb Hq Hc Hf.
      - exists true. split; [reflexivity|]. split; auto. intros _ j Hj. lia.
      - cbn [equalRange]. destruct (Hf o) as [Hfo Hgo]; [lia|].
        destruct (f o) as [x|] eqn:Ex; [|congruence]. destruct (g o) as [y|] eqn:Ey; [|congruence].
        rewrite (read_ok h b c f o x), (read_ok h q c g o y) by (auto; lia). cbn [bind].
        destruct (teq x y) eqn:Et.
        + apply Hteq in Et. subst y. unfold padd. cbn [fst snd].
          destruct (IH h b q c f g (o + 1) Hb Hq) as (r & E & Hr); [lia|intros; apply Hf; lia|].
          exists r. split; auto. rewrite Hr. split; intros Hall j Hj.
          * destruct (Nat.eq_dec j o) as [->|]; [congruence|]. apply Hall. lia.
          * apply Hall. lia.
        + exists false. split; auto. split; [discriminate|]. intros Hall. exfalso.
          specialize (Hall o ltac:(lia)). assert (x = y) by congruence. apply Hteq in H. congruence.
    Qed.

    Lemma equalBlocks_ok l m v w ids js h : rep' l v h ids -> rep' m w h js ->
      okIdx (blockIdx v) (length l) -> length l = length m -> blockIdx w = blockIdx v ->
      blockIdx v < length ids -> blockIdx v < length js ->
      forall k i, i + k = blockIdx v ->
      exists r, equalBlocks teq k i (cap i) (cap (S i)) v w h = Some r /\
        (r = true <-> forall j, base i <= j < base (i + k) -> nth_error l j = nth_error m j).
    Proof.
      intros R R' Hok Hlm Hbw Hl1 Hl2. induction k as [|k IH]; intros i Hik.
      - exists true. split; [reflexivity|]. split; auto. intros _ j Hj. rewrite Nat.add_0_r in Hj. lia.
      - cbn [equalBlocks]. destruct (nth_some ids i) as (b & Hb); [lia|]. destruct (nth_some js i) as (q & Hq); [lia|].
        rewrite (ids_block v ids _ b (r_blocks _ _ _ _ R) Hb), (ids_block w js _ q (r_blocks _ _ _ _ R') Hq). cbn [bind].
        destruct (equalRange_ok (cap i) h b q (cap i) (content l i) (content m i) 0) as (r & E & Hr).
        + now apply R.
        + now apply R'.
        + lia.
        + intros j Hj. split; [apply (full_block l v)|apply (full_block m w)]; auto; try lia.
          rewrite Hbw, <- Hlm. exact Hok.
        + unfold mkp. rewrite E. cbn [bind]. pose proof (base_S i) as HbS. pose proof (base_mono (S i) (i + S k) ltac:(lia)).
          destruct r.
          * rewrite <- cap_double, Nat.add_1_r. destruct (IH (S i)) as (r & E' & Hr'); [lia|].
            exists r. split; auto. rewrite Hr'. replace (S i + k) with (i + S k) by lia.
            split; intros Hall j Hj.
            -- destruct (le_lt_dec (base (S i)) j); [apply Hall; lia|].
               pose proof (proj1 Hr eq_refl (j - base i) ltac:(lia)) as Hj'. unfold content in Hj'.
               now replace (base i + (j - base i)) with j in Hj' by lia.
            -- apply Hall. lia.
          * exists false. split; auto. split; [discriminate|]. intros Hall. apply Hr. intros j Hj. unfold content.
            apply Hall. lia.
    Qed.

    Lemma equal_ok l m v w h : rep l v h -> rep m w h ->
      exists r, equal teq v w h = Some r /\ (r = true <-> l = m).
    Proof.
      intros Rv Rw. pose proof (rep_size _ _ _ Rv) as Hsv. pose proof (rep_size _ _ _ Rw) as Hsw.
      unfold equal. rewrite Hsv, Hsw. destruct (Nat.eqb_spec (length l) (length m)) as [El|El]; cbn [negb].
      2:{ exists false. split; auto. split; [discriminate|congruence]. }
      destruct (Nat.eqb_spec (length l) 0) as [E0|E0].
      { exists true. split; auto. destruct l, m; try discriminate. tauto. }
      destruct Rv as (ids & R), Rw as (js & R').
      pose proof R as [Rb Rn Rc [(_ & -> & _)|(b & Hb & Hs & Hok & Hst & Hp & He)]]; [cbn in E0; lia|].
      pose proof R' as [Rb' Rn' Rc' [(_ & -> & _)|(b' & Hb' & Hs' & Hok' & Hst' & Hp' & He')]]; [cbn in El; lia|].
      assert (Hbi : blockIdx v < length ids) by (apply nth_error_Some; congruence).
      assert (Hbi' : blockIdx w < length js) by (apply nth_error_Some; congruence).
      assert (Hbw : blockIdx w = blockIdx v) by (eapply okIdx_unique; [|exact Hok]; rewrite El; exact Hok').
      rewrite Hbw in *.
      change (equalBlocks teq (blockIdx v) 0 IC IC v w h) with (equalBlocks teq (blockIdx v) 0 (cap 0) (cap 0) v w h).
      replace (equalBlocks teq (blockIdx v) 0 (cap 0) (cap 0) v w h) with (equalBlocks teq (blockIdx v) 0 (cap 0) (cap 1) v w h)
        by (f_equal; rewrite cap_S, base_S; reflexivity).
      destruct (equalBlocks_ok l m v w ids js h R R' Hok El Hbw Hbi Hbi' (blockIdx v) 0 eq_refl) as (r & E & Hr).
      rewrite E. cbn [bind]. cbn [Nat.add] in Hr. change (base 0) with 0 in Hr. set (bi := blockIdx v) in *.
      pose proof Hok as [Hok1 Hok2].
      destruct r.
      - rewrite Hp, Hst, Hst'. unfold pdiff. rewrite Nat.eqb_refl. cbn [Nat.leb andb bind]. rewrite Nat.sub_0_r.
        destruct (equalRange_ok (length l - base bi) h b b' (cap bi) (content l bi) (content m bi) 0) as (r & E' & Hr'); auto; try lia.
        { intros j Hj. unfold content. split; apply nth_error_Some; lia. }
        exists r. split; auto. rewrite Hr'. split.
        + intros Hall. apply nth_error_ext'. intros j. destruct (le_lt_dec (length l) j) as [Hj|Hj].
          { rewrite (proj2 (nth_error_None l j)), (proj2 (nth_error_None m j)) by lia. reflexivity. }
          destruct (le_lt_dec (base bi) j) as [Hj'|Hj'].
          * specialize (Hall (j - base bi) ltac:(lia)). unfold content in Hall.
            now replace (base bi + (j - base bi)) with j in Hall by lia.
          * apply Hr; auto. lia.
        + intros -> j Hj. reflexivity.
      - exists false. split; auto. split; [discriminate|]. intros ->. apply Hr. auto.
    Qed.
  End Eq.

  (** ** the destructor *)
  Lemma releaseFull_ok v ids : blocks v = map mkp ids -> NoDup ids -> forall k i h c, i + k <= length ids ->
    (forall j b, nth_error ids j = Some b -> i <= j -> blk h b (cap j) (c j)) ->
    (forall j o, i <= j < i + k -> o < cap j -> c j o <> None) ->
    exists h', releaseFull k i (cap i) (cap (S i)) v h = Some (cap (i + k), cap (S (i + k)), h') /\
      length h' = length h /\
      (forall j b, nth_error ids j = Some b -> i + k <= j -> blk h' b (cap j) (c j)) /\
      (forall j b, nth_error ids j = Some b -> i <= j < i + k -> nth_error h' b = Some None) /\
      (forall b, ~ In b ids -> nth_error h' b = nth_error h b) /\
      (forall j b, nth_error ids j = Some b -> j < i -> nth_error h' b = nth_error h b).
  Proof.
    intros Rb Rn. induction k as [|k IH]; intros i h c Hlen Hc Hf.
    - rewrite Nat.add_0_r. exists h. repeat split; auto. intros; lia.
    - cbn [releaseFull]. destruct (nth_some ids i) as (b & Hb); [lia|].
      rewrite (ids_block v ids _ b Rb Hb). cbn [bind].
      destruct (destroy_n_ok (cap i) h b (cap i) (c i) 0) as (h1 & E & B & F); [apply Hc; auto|lia| |].
      { intros j Hj. apply Hf; lia. }
      unfold mkp. rewrite E. cbn [bind].
      destruct (deallocate_ok _ _ _ _ B) as (h2 & E2 & F2 & Z2).
      { intros o Ho. cbv beta. destruct (Nat.leb_spec 0 o), (Nat.ltb_spec o (0 + cap i)); cbn; auto; lia. }
      rewrite E2. cbn [bind]. rewrite <- cap_double, Nat.add_1_r.
      pose proof (frame_trans _ _ _ _ F F2) as F3.
      assert (Hnb : forall j b', nth_error ids j = Some b' -> j <> i -> b' <> b).
      { intros j b' Hj Hne ->. apply Hne. eapply nodup_nth; eauto. }
      destruct (IH (S i) h2 c) as (h3 & E3 & L3 & C3 & Z3 & O3 & P3); [lia| | |].
      { intros j b' Hj Hij. eapply blk_frame; [exact F3| |apply Hc; [exact Hj|lia]]. eapply Hnb; eauto. lia. }
      { intros j o Hj Ho. apply Hf; auto. lia. }
      replace (i + S k) with (S i + k) by lia. exists h3. split; auto. destruct F3 as [L F3].
      split; [lia|]. split; auto. split; [|split].
      + intros j b' Hj Hij. destruct (Nat.eq_dec j i) as [->|Hne].
        * rewrite (P3 i b') by (auto; lia). congruence.
        * apply (Z3 j); auto. lia.
      + intros b' Hb'. rewrite O3 by auto. apply F3. intros ->. apply Hb'. eapply nth_error_In; eauto.
      + intros j b' Hj Hji. rewrite (P3 j b') by (auto; lia). apply F3. eapply Hnb; eauto. lia.
  Qed.

  Lemma releaseRest_ok : forall rest h i c, NoDup rest ->
    (forall k b, nth_error rest k = Some b -> blk h b (cap (i + k)) (c k)) ->
    (forall k o, o < cap (i + k) -> c k o = None) ->
    exists h', releaseRest (map mkp rest) (cap i) (cap (S i)) h = Some h' /\ length h' = length h /\
      (forall b, ~ In b rest -> nth_error h' b = nth_error h b) /\
      (forall b, In b rest -> nth_error h' b = Some None).
  Proof.
    induction rest as [|b rest IH]; intros h i c Hn Hc Hf.
    - exists h. cbn. repeat split; auto. contradiction.
    - cbn [map releaseRest]. inversion Hn; subst.
      destruct (deallocate_ok h b (cap i) (c 0)) as (h1 & E & F & Z).
      { specialize (Hc 0 b eq_refl). now rewrite Nat.add_0_r in Hc. }
      { intros o Ho. apply Hf. now rewrite Nat.add_0_r. }
      unfold mkp at 1. rewrite E. cbn [bind]. rewrite <- cap_double.
      destruct (IH h1 (S i) (fun k => c (S k))) as (h2 & E2 & L2 & O2 & Z2); auto.
      { intros k b' Hk. replace (S i + k) with (i + S k) by lia.
        eapply blk_frame; [exact F| |apply Hc; exact Hk]. intros ->. apply H1. eapply nth_error_In; eauto. }
      { intros k o Ho. apply Hf. now replace (i + S k) with (S i + k) by lia. }
      exists h2. split; auto. split; [destruct F; lia|]. split.
      + intros b' Hb'. cbn in Hb'. rewrite O2 by tauto. apply F. intros ->. tauto.
      + intros b' [<-|Hb']; auto. rewrite O2 by auto. auto.
  Qed.

  Lemma destructor_ok l v h ids : rep' l v h ids ->
    exists h', destructor v h = Some h' /\ length h' = length h /\
      (forall b, In b ids -> nth_error h' b = Some None) /\ (forall b, ~ In b ids -> nth_error h' b = nth_error h b).
  Proof.
    intros [Rb Rn Rc [(-> & -> & ->)|(b & Hb & Hs & Hok & Hst & Hp & He)]].
    { exists h. cbn. repeat split; auto. contradiction. }
    assert (Hbi : blockIdx v < length ids) by (apply nth_error_Some; congruence).
    unfold destructor.
    change (releaseFull (blockIdx v) 0 IC IC v h) with (releaseFull (blockIdx v) 0 (cap 0) (cap 0) v h).
    replace (releaseFull (blockIdx v) 0 (cap 0) (cap 0) v h) with (releaseFull (blockIdx v) 0 (cap 0) (cap 1) v h)
      by (f_equal; rewrite cap_S, base_S; reflexivity).
    destruct (releaseFull_ok v ids Rb Rn (blockIdx v) 0 h (content l)) as (h1 & E1 & L1 & C1 & Z1 & O1 & _); [lia|auto| |].
    { intros j o Hj Ho. eapply full_block; eauto. lia. }
    rewrite E1. cbn [bind Nat.add]. cbn [Nat.add] in *. set (bi := blockIdx v) in *. pose proof Hok as [Hok1 Hok2].
    unfold destroyRange. rewrite Hst, Hp. unfold pdiff. rewrite Nat.eqb_refl. cbn [Nat.leb andb bind]. rewrite Nat.sub_0_r.
    destruct (destroy_n_ok (length l - base bi) h1 b (cap bi) (content l bi) 0) as (h2 & E2 & B2 & F2); [now apply C1|lia| |].
    { intros j Hj. unfold content. apply nth_error_Some. lia. }
    rewrite E2. cbn [bind]. rewrite Rb, skipn_map.
    destruct (NoDup_split_ids ids bi Rn) as (N1 & N2 & N3).
    destruct (releaseRest_ok (skipn bi ids) h2 bi (fun k o => None)) as (h3 & E3 & L3 & O3 & Z3); auto.
    { intros k b' Hk. rewrite nth_error_skipn in Hk. destruct k as [|k].
      - rewrite Nat.add_0_r in *. assert (b' = b) by congruence. subst b'. eapply blk_ext; [|exact B2].
        intros o Ho. cbv beta. destruct (Nat.leb_spec 0 o), (Nat.ltb_spec o (0 + (length l - base bi))); cbn [andb]; auto; try lia.
        unfold content. apply nth_error_None. lia.
      - eapply blk_frame; [exact F2| |].
        + intros ->. assert (bi + S k = bi) by (eapply (nodup_nth ids); eassumption). lia.
        + eapply blk_ext; [|apply C1; [exact Hk|lia]]. intros o Ho. eapply free_block; eauto. lia. }
    exists h3. split; auto. destruct F2 as [L2 F2]. split; [lia|]. split.
    - intros b' Hin. destruct (in_dec Nat.eq_dec b' (skipn bi ids)) as [Hs'|Hs']; auto.
      rewrite O3 by auto. apply In_nth_error in Hin as (j & Hj).
      assert (j < bi).
      { destruct (le_lt_dec bi j); auto. exfalso. apply Hs'. apply (nth_error_In _ (j - bi)). rewrite nth_error_skipn.
        now replace (bi + (j - bi)) with j by lia. }
      rewrite F2; [eapply Z1; eauto; lia|]. intros ->. assert (j = bi) by (eapply (nodup_nth ids); eassumption). lia.
    - intros b' Hin. assert (Hnb : b' <> b) by (intros ->; apply Hin; eapply nth_error_In; eauto).
      rewrite O3. { rewrite F2 by auto. auto. }
      intros Hs'. apply Hin. rewrite <- (firstn_skipn bi ids). apply in_or_app. auto.
  Qed.

  (** ** Locality: operations only touch the memory of their vector *)
  Section Local.
    Context (h0 : heap) (own : nat -> Prop) (Hnew : forall b, length h0 <= b -> own b).
    Definition same h : Prop := length h0 <= length h /\ forall b, b < length h0 -> ~ own b -> nth_error h b = nth_error h0 b.
    Definition ownp (p : option ptr) : Prop := match p with Some p => own (fst p) | None => True end.
    Definition good v : Prop := Forall (fun p : ptr => own (fst p)) (blocks v) /\ ownp (start v) /\ ownp (pos v).

    Lemma same_put h h' b a : same h -> own b -> upd b a h = Some h' -> same h'.
    Proof.
      intros [L S] Ho E.
      assert (Hb : b < length h).
      { clear -E. revert b h' E. induction h as [|y h IH]; intros [|b] h' E; cbn in *; try discriminate; try lia.
        destruct (upd b a h) eqn:E'; [|discriminate]. apply IH in E'. lia. }
      destruct (upd_ok a h b Hb) as (h1 & E1 & L1 & N1). rewrite E in E1. injection E1 as <-.
      split; [lia|]. intros b' Hb' Hn. rewrite N1. destruct (Nat.eqb_spec b' b) as [->|]; [contradiction|auto].
    Qed.
    Lemma same_construct h h' p x : same h -> own (fst p) -> construct p x h = Some h' -> same h'.
    Proof.
      intros S Ho E. unfold construct in E. destruct (cells (fst p) h); [|discriminate]. cbn [bind] in E.
      destruct (nth_error l (snd p)) as [[|]|]; try discriminate.
      destruct (upd (snd p) (Some x) l); [|discriminate]. cbn [bind] in E. eapply same_put; eauto.
    Qed.
    Lemma same_destroy h h' p : same h -> own (fst p) -> destroy p h = Some h' -> same h'.
    Proof.
      intros S Ho E. unfold destroy in E. destruct (cells (fst p) h); [|discriminate]. cbn [bind] in E.
      destruct (nth_error l (snd p)) as [[|]|]; try discriminate.
      destruct (upd (snd p) None l); [|discriminate]. cbn [bind] in E. eapply same_put; eauto.
    Qed.
    Lemma same_destroy_n n : forall h h' p, same h -> own (fst p) -> destroy_n p n h = Some h' -> same h'.
    Proof.
      induction n as [|n IH]; intros h h' p S Ho E; cbn [destroy_n] in E; [congruence|].
      destruct (destroy p h) as [h1|] eqn:E1; [|discriminate]. cbn [bind] in E.
      eapply (IH h1 h' (fst p, snd p + 1)); [|exact Ho|exact E]. eapply same_destroy; eauto.
    Qed.
    Lemma same_deallocate h h' p n : same h -> own (fst p) -> deallocate p n h = Some h' -> same h'.
    Proof.
      intros S Ho E. unfold deallocate in E. destruct (cells (fst p) h); [|discriminate]. cbn [bind] in E.
      match type of E with bind (guard ?c) _ = _ => destruct c; [|discriminate] end. cbn [guard bind] in E.
      eapply same_put; eauto.
    Qed.
    Lemma same_allocate h n : same h -> same (snd (allocate n h)) /\ own (fst (fst (allocate n h))).
    Proof.
      intros [L S]. cbn. split; [|apply Hnew; lia]. split; [rewrite app_length; lia|].
      intros b Hb Hn. rewrite nth_error_app1 by lia. auto.
    Qed.
    Lemma same_destroyRange p q h h' : same h -> ownp p -> destroyRange p q h = Some h' -> same h'.
    Proof.
      intros S Ho E. unfold destroyRange in E. destruct (pdiff q p); [|discriminate]. cbn [bind] in E.
      destruct p; [|congruence]. eapply same_destroy_n; eauto.
    Qed.
    Lemma own_block v i p : good v -> nth_error (blocks v) i = Some p -> own (fst p).
    Proof. intros [G _] E. rewrite Forall_forall in G. apply (G p). eapply nth_error_In; eauto. Qed.

    Lemma same_emplace v h x p v' h' : same h -> good v -> emplace_back x v h = Some (p, v', h') -> same h' /\ good v'.
    Proof.
      intros S G E. pose proof G as (G1 & G2 & G3). unfold emplace_back in E. destruct (eqb (pos v) (end_ v)).
      - unfold growAndEmplace in E.
        assert (K : forall bs e bi h1, same h1 -> Forall (fun p : ptr => own (fst p)) bs ->
          (do ret <- nth_error bs bi; do h'' <- construct ret x h1;
            Some (ret, mkSV bs (Some ret) (Some (padd ret 1)) (Some e) (size v + 1) bi, h'')) = Some (p, v', h') -> same h' /\ good v').
        { intros bs e bi h1 S1 F1 E1. destruct (nth_error bs bi) as [r|] eqn:Er; [|discriminate]. cbn [bind] in E1.
          assert (own (fst r)) by (rewrite Forall_forall in F1; apply F1; eapply nth_error_In; eauto).
          destruct (construct r x h1) as [h2|] eqn:E2; [|discriminate]. cbn [bind] in E1. injection E1 as <- <- <-.
          split; [eapply same_construct; eauto|]. split; cbn; auto. }
        destruct (blocks v) as [|b0 bs0] eqn:Eb.
        + destruct (same_allocate h IC S) as [S1 O1]. unfold allocate in *. cbn [fst snd] in *. cbn [bind] in E.
          eapply K; [exact S1| |exact E]. constructor; auto.
        + destruct (isPowerOf2 (size v)); [|discriminate]. cbn [guard bind] in E.
          destruct (blockIdx v <? length (b0 :: bs0) - 1).
          * destruct (nth_error (b0 :: bs0) (blockIdx v + 1)) eqn:En; [|discriminate]. cbn [bind] in E.
            eapply K; [exact S| |exact E]. auto.
          * destruct (same_allocate h (size v) S) as [S1 O1]. unfold allocate in *. cbn [fst snd] in *. cbn [bind] in E.
            eapply K; [exact S1| |exact E]. apply Forall_app. split; auto.
      - destruct (pos v) as [q|] eqn:Eq; [|discriminate]. cbn [bind] in E.
        destruct (construct q x h) as [h1|] eqn:E1; [|discriminate]. cbn [bind] in E. injection E as <- <- <-.
        split; [eapply same_construct; eauto|]. split; cbn; auto.
    Qed.
    Lemma own_previous v c p n : good v -> previousBlock v c = Some (p, n) -> own (fst p).
    Proof.
      intros G E. unfold previousBlock in E. destruct (blockIdx v - 1 =? 0).
      - destruct (nth_error (blocks v) 0) eqn:En; [|discriminate]. cbn [bind] in E. injection E as <- <-. eapply own_block; eauto.
      - destruct (pdiff (end_ v) (start v)); [|discriminate]. cbn [bind] in E.
        match type of E with bind (guard ?c) _ = _ => destruct c; [|discriminate] end. cbn [guard bind] in E.
        destruct (nth_error (blocks v) (blockIdx v - 1)) eqn:En; [|discriminate]. cbn [bind] in E. injection E as <- <-. eapply own_block; eauto.
    Qed.
    Lemma same_pop v h v' h' : same h -> good v -> pop_back v h = Some (v', h') -> same h' /\ good v'.
    Proof.
      intros S G E. pose proof G as (G1 & G2 & G3). unfold pop_back in E. destruct (back v) as [p|] eqn:Eb; [|discriminate]. cbn [bind] in E.
      assert (Op : own (fst p)).
      { unfold back in Eb. destruct (negb (size v =? 0)); [|discriminate]. cbn [guard bind] in Eb.
        destruct (pos v) as [q|] eqn:Eq; [|discriminate]. cbn [bind] in Eb. destruct (0 <? snd q); [|discriminate].
        cbn [guard bind] in Eb. injection Eb as <-. exact G3. }
      destruct (destroy p h) as [h1|] eqn:E1; [|discriminate]. cbn [bind] in E.
      assert (S1 : same h1) by (eapply same_destroy; eauto).
      assert (G' : good (mkSV (blocks v) (start v) (Some p) (end_ v) (size v - 1) (blockIdx v))) by (split; cbn; auto).
      destruct (negb (eqb (Some p) (start v))); [injection E as <- <-; auto|].
      destruct (blockIdx v =? 0); [injection E as <- <-; auto|].
      match type of E with bind ?e _ = _ => destruct e as [[b n]|] eqn:Ep; [|discriminate] end. cbn [bind] in E.
      injection E as <- <-. split; auto. apply own_previous in Ep; auto. split; cbn; auto.
    Qed.
    Lemma same_clearBlocks v k : forall i c t h h', same h -> good v -> clearBlocks k i c t v h = Some h' -> same h'.
    Proof.
      induction k as [|k IH]; intros i c t h h' S G E; cbn [clearBlocks] in E; [congruence|].
      destruct (nth_error (blocks v) i) as [b|] eqn:En; [|discriminate]. cbn [bind] in E.
      destruct (destroy_n b c h) as [h1|] eqn:E1; [|discriminate]. cbn [bind] in E.
      eapply IH; [|exact G|exact E]. eapply same_destroy_n; eauto. eapply own_block; eauto.
    Qed.
    Lemma same_clear v h v' h' : same h -> good v -> clear v h = Some (v', h') -> same h' /\ good v'.
    Proof.
      intros S G E. pose proof G as (G1 & G2 & G3). unfold clear in E.
      destruct (clearBlocks (blockIdx v) 0 IC IC v h) as [h1|] eqn:E1; [|discriminate]. cbn [bind] in E.
      destruct (destroyRange (start v) (pos v) h1) as [h2|] eqn:E2; [|discriminate]. cbn [bind] in E.
      assert (S2 : same h2) by (eapply same_destroyRange; [eapply same_clearBlocks; eauto|exact G2|exact E2]).
      destruct (blocks v) as [|b bs] eqn:Eb; injection E as <- <-; split; auto; split; cbn; auto.
      inversion G1; auto.
    Qed.
    Lemma same_popLoop : forall fuel n v h v' h', same h -> good v -> popLoop fuel n v h = Some (v', h') -> same h' /\ good v'.
    Proof.
      induction fuel as [|fuel IH]; intros n v h v' h' S G E; [discriminate|]. pose proof G as (G1 & G2 & G3).
      cbn [popLoop] in E. destruct (pdiff (pos v) (start v)) as [cur|]; [|discriminate]. cbn [bind] in E.
      destruct (pos v) as [p|] eqn:Ep; [|discriminate]. cbn [bind] in E.
      destruct (n <? cur).
      - destruct (destroy_n (fst p, snd p - n) n h) as [h1|] eqn:E1; [|discriminate]. cbn [bind] in E. injection E as <- <-.
        split; [eapply same_destroy_n; [exact S| |exact E1]; exact G3|]. split; cbn; auto.
      - destruct (destroyRange (start v) (Some p) h) as [h1|] eqn:E1; [|discriminate]. cbn [bind] in E.
        assert (S1 : same h1) by (exact (same_destroyRange _ _ _ _ S G2 E1)).
        match type of E with bind ?e _ = _ => destruct e as [v1|] eqn:Ev; [|discriminate] end. cbn [bind] in E.
        assert (Gv : good v1).
        { destruct (blockIdx v =? 0).
          - destruct (nth_error (blocks v) 0) eqn:En; [|discriminate]. cbn [bind] in Ev. injection Ev as <-.
            apply own_block in En; auto. split; cbn; auto.
          - destruct (previousBlock v false) as [[b m]|] eqn:Epr; [|discriminate]. cbn [bind] in Ev. injection Ev as <-.
            apply own_previous in Epr; auto. split; cbn; auto. }
        destruct (n - cur =? 0); [injection E as <- <-; auto|]. eapply IH; eauto.
    Qed.
    Lemma same_freeBlocks : forall bs c h h', same h -> Forall (fun p : ptr => own (fst p)) bs -> freeBlocks bs c h = Some h' -> same h'.
    Proof.
      induction bs as [|b bs IH]; intros c h h' S F E; cbn [freeBlocks] in E; [congruence|]. inversion F; subst.
      destruct (deallocate b c h) as [h1|] eqn:E1; [|discriminate]. cbn [bind] in E.
      eapply IH; [|assumption|exact E]. eapply same_deallocate; eauto.
    Qed.
    Lemma Forall_firstn_skipn {A} (Q : A -> Prop) n xs : Forall Q xs -> Forall Q (firstn n xs) /\ Forall Q (skipn n xs).
    Proof. intros F. apply Forall_app. rewrite firstn_skipn. exact F. Qed.
    Lemma same_shrink v h v' h' : same h -> good v -> shrink_to_fit v h = Some (v', h') -> same h' /\ good v'.
    Proof.
      intros S G E. pose proof G as (G1 & G2 & G3). unfold shrink_to_fit in E.
      match type of E with (if ?c then _ else _) = _ => destruct c; [injection E as <- <-; auto|] end.
      match type of E with bind ?e _ = _ => destruct e as [h1|] eqn:E1; [|discriminate] end. cbn [bind] in E.
      assert (S1 : same h1).
      { destruct (size v =? 0); [|congruence]. destruct (blockIdx v =? 0); [|discriminate]. cbn [guard bind] in E1.
        destruct (nth_error (blocks v) 0) eqn:En; [|discriminate]. cbn [bind] in E1.
        eapply same_deallocate; [exact S| |exact E1]. eapply own_block; eauto. }
      match type of E with bind ?e _ = _ => destruct e as [h2|] eqn:E2; [|discriminate] end. cbn [bind] in E.
      injection E as <- <-. split.
      - eapply same_freeBlocks; [exact S1| |exact E2]. exact (proj2 (Forall_firstn_skipn _ _ _ G1)).
      - split; cbn; auto. exact (proj1 (Forall_firstn_skipn _ _ _ G1)).
    Qed.
    Lemma same_step o v h v' h' : same h -> good v -> step o (v, h) = Some (v', h') -> same h' /\ good v'.
    Proof.
      intros S G E. destruct o; cbn [step] in E.
      - destruct (emplace_back x v h) as [[[p v1] h1]|] eqn:E1; [|discriminate]. cbn [bind] in E. injection E as <- <-.
        eapply same_emplace; eauto.
      - eapply same_pop; eauto.
      - unfold pop_back_n in E. destruct (n <=? size v); [|discriminate]. cbn [guard bind] in E.
        destruct (n =? 0); [injection E as <- <-; auto|]. eapply same_popLoop; eauto.
      - eapply same_clear; eauto.
      - eapply same_shrink; eauto.
    Qed.
  End Local.

  Lemma rep_good l v h ids (own : nat -> Prop) : rep' l v h ids -> (forall b, In b ids -> own b) -> good own v.
  Proof.
    intros [Rb Rn Rc Rs] Ho. split; [|split].
    - rewrite Rb. apply Forall_map, Forall_forall. exact Ho.
    - destruct Rs as [(_ & _ & ->)|(b & Hb & _ & _ & -> & _)]; cbn; auto. apply Ho. eapply nth_error_In; eauto.
    - destruct Rs as [(_ & _ & ->)|(b & Hb & _ & _ & _ & -> & _)]; cbn; auto. apply Ho. eapply nth_error_In; eauto.
  Qed.
  Lemma rep_ids l v h ids (own : nat -> Prop) b : rep' l v h ids -> good own v -> In b ids -> own b.
  Proof.
    intros R [G _] Hb. rewrite (r_blocks _ _ _ _ R), Forall_map, Forall_forall in G. now apply G.
  Qed.

  Lemma step_local o l l' v h ids : rep' l v h ids -> apply o l = Some l' -> safe o v ->
    exists v' h' ids', step o (v, h) = Some (v', h') /\ rep' l' v' h' ids' /\ length h <= length h' /\
      (forall b, In b ids' -> In b ids \/ length h <= b) /\
      (forall b, b < length h -> ~ In b ids -> nth_error h' b = nth_error h b).
  Proof.
    intros R Ha Hs. destruct (step_ok o l l' v h) as (v' & h' & E & (ids' & R') & _); auto; [eexists; eauto|].
    set (own := fun b => In b ids \/ length h <= b).
    destruct (same_step h own (fun b Hb => or_intror Hb) o v h v' h') as [[L S] G]; auto.
    - split; auto.
    - eapply rep_good; [exact R|]. left. auto.
    - exists v', h', ids'. split; auto. split; auto. split; auto. split.
      + intros b Hb. exact (rep_ids _ _ _ _ own b R' G Hb).
      + intros b Hb Hn. apply S; auto. intros [|]; [auto|lia].
  Qed.

  (** ** Several vectors *)
  Definition reps (ls : list (list T)) (vs : list (@sv)) h (idss : list (list nat)) : Prop :=
    length vs = length ls /\ length idss = length ls /\
    (forall i l v ids, nth_error ls i = Some l -> nth_error vs i = Some v -> nth_error idss i = Some ids -> rep' l v h ids) /\
    (forall i j a b, i <> j -> nth_error idss i = Some a -> nth_error idss j = Some b -> forall x, In x a -> ~ In x b).

  Lemma rep'_lt l v h ids b : rep' l v h ids -> In b ids -> b < length h.
  Proof. intros R Hb. apply In_nth_error in Hb as (k & Hk). eapply blk_lt. eapply r_cells; eauto. Qed.
  Lemma rep'_same l v h h' ids : rep' l v h ids -> (forall b, In b ids -> nth_error h' b = nth_error h b) -> rep' l v h' ids.
  Proof.
    intros [A B C D] S. constructor; auto. intros k b Hk. eapply blk_same; [|eauto]. apply S. eapply nth_error_In; eauto.
  Qed.
  Lemma nth_replace {A} (l : list A) i a j : i < length l ->
    nth_error (replace i a l) j = if j =? i then Some a else nth_error l j.
  Proof.
    intros Hi. unfold replace. destruct (Nat.eqb_spec j i) as [->|Hj].
    - rewrite nth_error_app2 by (rewrite firstn_length; lia). rewrite firstn_length. replace (i - Nat.min i (length l)) with 0 by lia. reflexivity.
    - destruct (le_lt_dec i j).
      + rewrite nth_error_app2 by (rewrite firstn_length; lia). rewrite firstn_length.
        replace (j - Nat.min i (length l)) with (S (j - S i)) by lia. cbn [nth_error]. rewrite nth_error_skipn. f_equal. lia.
      + rewrite nth_error_app1 by (rewrite firstn_length; lia). rewrite nth_error_firstn. destruct (Nat.ltb_spec j i); [auto|lia].
  Qed.
  Lemma length_replace {A} (l : list A) i a : i < length l -> length (replace i a l) = length l.
  Proof. intros Hi. unfold replace. rewrite app_length, firstn_length. cbn [length]. rewrite skipn_length. lia. Qed.

  (** replacing one vector *)
  Lemma reps_set ls vs h idss i l v ids l' v' h' ids' vs' :
    reps ls vs h idss -> nth_error ls i = Some l -> nth_error vs i = Some v -> nth_error idss i = Some ids ->
    rep' l' v' h' ids' -> (forall b, In b ids' -> In b ids \/ length h <= b) ->
    (forall b, b < length h -> ~ In b ids -> nth_error h' b = nth_error h b) ->
    upd i v' vs = Some vs' -> reps (replace i l' ls) vs' h' (replace i ids' idss).
  Proof.
    intros (L1 & L2 & Rr & D) Hl Hv Hi R' Hids Hsame Hu.
    assert (Hil : i < length ls) by (apply nth_error_Some; congruence).
    destruct (upd_ok v' vs i) as (vs1 & E1 & L & N); [lia|]. rewrite Hu in E1. injection E1 as <-.
    split; [rewrite length_replace; lia|]. split; [rewrite !length_replace; lia|]. split.
    - intros j l0 v0 ids0. rewrite !nth_replace, N by lia. destruct (Nat.eqb_spec j i) as [->|Hne].
      + intros [= <-] [= <-] [= <-]. exact R'.
      + intros A B C. pose proof (Rr _ _ _ _ A B C) as R0. eapply rep'_same; [exact R0|].
        intros b Hb. apply Hsame; [eapply rep'_lt; eauto|]. eapply D; [exact Hne|exact C|exact Hi|exact Hb].
    - intros a b A B Hne. rewrite !nth_replace by lia.
      assert (Hlt : forall k ids0 x, nth_error idss k = Some ids0 -> In x ids0 -> x < length h).
      { intros k ids0 x Hk Hx. destruct (nth_some ls k) as (l0 & Hl0); [rewrite <- L2; apply nth_error_Some; congruence|].
        destruct (nth_some vs k) as (v0 & Hv0); [rewrite L1; apply nth_error_Some; congruence|].
        eapply rep'_lt; [eapply Rr; eauto|auto]. }
      destruct (Nat.eqb_spec a i) as [->|Ha], (Nat.eqb_spec b i) as [->|Hb]; intros HA Hx x Hin Hin'; try lia.
      + injection HA as <-. destruct (Hids x Hin) as [Hin0|Hge].
        * eapply (D i b); eauto.
        * specialize (Hlt b B x Hx Hin'). lia.
      + injection Hx as <-. destruct (Hids x Hin') as [Hin0|Hge].
        * eapply (D a i); eauto.
        * specialize (Hlt a A x HA Hin). lia.
      + eapply (D a b); eauto.
  Qed.
  Lemma reps_add ls vs h idss l v h' ids : reps ls vs h idss -> rep' l v h' ids -> older h h' ->
    (forall b, In b ids -> length h <= b) -> reps (ls ++ [l]) (vs ++ [v]) h' (idss ++ [ids]).
  Proof.
    intros (L1 & L2 & Rr & D) R O F.
    assert (Hlt : forall k ids0 x, nth_error idss k = Some ids0 -> In x ids0 -> x < length h).
    { intros k ids0 x Hk Hx. destruct (nth_some ls k) as (l0 & Hl0); [rewrite <- L2; apply nth_error_Some; congruence|].
      destruct (nth_some vs k) as (v0 & Hv0); [rewrite L1; apply nth_error_Some; congruence|].
      eapply rep'_lt; [eapply Rr; eauto|auto]. }
    split; [rewrite !app_length; cbn; lia|]. split; [rewrite !app_length; cbn; lia|]. split.
    - intros i l0 v0 ids0. rewrite !nth_error_snoc, L1, L2. destruct (Nat.eqb_spec i (length ls)).
      + intros [= <-] [= <-] [= <-]. exact R.
      + intros A B C. eapply older_rep; eauto.
    - intros i j a b Hne. rewrite !nth_error_snoc, L2.
      destruct (Nat.eqb_spec i (length ls)), (Nat.eqb_spec j (length ls)); try lia;
        intros HA Hx x Hin Hin'.
      + injection HA as <-. apply F in Hin. specialize (Hlt j b x Hx Hin'). lia.
      + injection Hx as <-. apply F in Hin'. specialize (Hlt i a x HA Hin). lia.
      + eapply (D i j); eauto.
  Qed.

  Lemma upd_some {A} (a : A) (l : list A) i x : nth_error l i = Some x -> exists l' : list A, upd i a l = Some l'.
  Proof. intros E. apply upd_exists. apply nth_error_Some. congruence. Qed.

  Lemma mstep_ok o ls ls' vs h idss : reps ls vs h idss -> mapply o ls = Some ls' -> mshrinkNonempty o ls ->
    exists vs' h' idss', mstep o (vs, h) = Some (vs', h') /\ reps ls' vs' h' idss'.
  Proof.
    intros R Ha Hsn. pose proof R as (L1 & L2 & Rr & D).
    assert (Hget : forall i l, nth_error ls i = Some l -> exists v ids, nth_error vs i = Some v /\ nth_error idss i = Some ids /\ rep' l v h ids).
    { intros i l Hl. assert (i < length ls) by (apply nth_error_Some; congruence).
      destruct (nth_some vs i) as (v & Hv); [lia|]. destruct (nth_some idss i) as (ids & Hi); [lia|]. eauto 6. }
    destruct o as [|i o|i|i]; cbn [mapply] in Ha; cbn [mstep].
    - injection Ha as <-. eexists _, h, (idss ++ [[]]). split; [reflexivity|].
      eapply reps_add; eauto; [|apply older_refl|intros b []].
      constructor; auto; [constructor|]. intros [|]; discriminate.
    - destruct (nth_error ls i) as [l|] eqn:El; [|discriminate]. destruct (apply o l) as [l'|] eqn:Eo; [|discriminate].
      injection Ha as <-. destruct (Hget i l El) as (v & ids & Hv & Hi & R0). rewrite Hv. cbn [bind].
      destruct (step_local o l l' v h ids R0 Eo) as (v' & h' & ids' & E & R' & L & Hids & Hs).
      { destruct o; cbn in *; auto. left. rewrite (rep_size l v h) by (eexists; eauto). destruct l; [congruence|discriminate]. }
      rewrite E. cbn [bind]. destruct (upd_some v' vs i v Hv) as (vs' & Hu). rewrite Hu. cbn [bind].
      eexists _, _, _. split; [reflexivity|]. eapply reps_set; eauto.
    - destruct (nth_error ls i) as [l|] eqn:El; [|discriminate]. injection Ha as <-.
      destruct (Hget i l El) as (v & ids & Hv & Hi & R0). rewrite Hv. cbn [bind].
      destruct (copy_ok l v h) as (v' & h' & E & (ids' & R' & F) & _ & O & _); [eexists; eauto|].
      rewrite E. cbn [bind]. eexists _, _, _. split; [reflexivity|]. eapply reps_add; eauto.
    - destruct (nth_error ls i) as [l|] eqn:El; [|discriminate]. injection Ha as <-.
      destruct (Hget i l El) as (v & ids & Hv & Hi & R0). rewrite Hv. cbn [bind].
      destruct (destructor_ok l v h ids R0) as (h' & E & L & Z & S). rewrite E. cbn [bind].
      destruct (upd_some empty vs i v Hv) as (vs' & Hu). rewrite Hu. cbn [bind].
      eexists _, _, _. split; [reflexivity|]. eapply (reps_set ls vs h idss i l v ids [] empty h' []); eauto; [|intros b []].
      constructor; auto; [constructor|]. intros [|]; discriminate.
  Qed.

  Lemma mrun_ok os : forall ls ls' vs h idss, reps ls vs h idss -> mapplyAll os ls = Some ls' -> mshrinksNonempty os ls ->
    exists vs' h' idss', mrun os (vs, h) = Some (vs', h') /\ reps ls' vs' h' idss'.
  Proof.
    induction os as [|o os IH]; intros ls ls' vs h idss R Ha Hn; cbn [mapplyAll mshrinksNonempty] in *.
    - injection Ha as <-. cbn. eauto.
    - destruct Hn as [Ho Hn]. destruct (mapply o ls) as [l1|] eqn:E; [|discriminate].
      destruct (mstep_ok o ls l1 vs h idss R E Ho) as (v1 & h1 & i1 & E1 & R1).
      cbn [mrun]. rewrite E1. cbn [bind]. eauto.
  Qed.

  Lemma reps_empty : reps [] [] [] [].
  Proof.
    split; [reflexivity|]. split; [reflexivity|]. split.
    - intros [|] l v ids; discriminate.
    - intros [|] j a b _; discriminate.
  Qed.
End P.
