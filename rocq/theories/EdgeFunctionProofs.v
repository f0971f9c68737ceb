From Coq Require Import List Bool Arith Lia.
From Verif Require Import LatticeSpec EdgeFunctionModel.
Import ListNotations.

Section Ind.
  Context {L U : Type}.
  Variable P : ef L U -> Prop.
  Hypothesis HId : P EId.
  Hypothesis HBot : P EBot.
  Hypothesis HTop : P ETop.
  Hypothesis HConst : forall v, P (EConst v).
  Hypothesis HJoin : forall n s vec, Forall P vec -> P (EJoin n s vec).
  Hypothesis HJComp : forall n f g, P f -> P g -> P (EJComp n f g).
  Hypothesis HComp : forall f g, P f -> P g -> P (EComp f g).
  Hypothesis HUser : forall u, P (EUser u).
  Fixpoint ef_nind (f : ef L U) : P f :=
    match f with
    | EId => HId | EBot => HBot | ETop => HTop
    | EConst v => HConst v
    | EJoin n s vec => HJoin n s vec
        ((fix go l : Forall P l :=
            match l with [] => Forall_nil P | e :: r => Forall_cons e (ef_nind e) (go r) end) vec)
    | EJComp n f g => HJComp n f g (ef_nind f) (ef_nind g)
    | EComp f g => HComp f g (ef_nind f) (ef_nind g)
    | EUser u => HUser u
    end.
End Ind.

(** laws of the parameters *)
Record lops_ok {L} (O : lops L) : Prop := {
  lo_sl : semilattice eq (ljoin O) (ltop O) (lbot O);
  lo_eqb : forall x y, leqb O x y = true <-> x = y }.

Definition le {L} (O : lops L) (x y : L) : Prop := ljoin O x y = y.

(** A client class that keeps its part of the documented contract
    (EdgeFunction.h:347-404): equal objects and objects declared constant behave
    so, composition is exact, join is an upper bound. *)
Record client_ok {L U} (O : lops L) (C : clientops L U) : Prop := {
  co_eqb : forall u w x, ueqb C u w = true -> uapply C u x = uapply C w x;
  co_const : forall u x y, uconst C u = true -> uapply C u x = uapply C u y;
  co_compose : forall u g x, apply O C (ucompose C u g) x = apply O C g (uapply C u x);
  co_join : forall u g x, le O (uapply C u x) (apply O C (ujoin C u g) x) /\
                          le O (apply O C g x) (apply O C (ujoin C u g) x);
  co_cjoin : forall a b g x, le O (apply O C b (apply O C a x)) (apply O C (cjoin C a b g) x) /\
                             le O (apply O C g x) (apply O C (cjoin C a b g) x) }.

Definition client_mono {L U} (O : lops L) (C : clientops L U) : Prop :=
  forall u x y, le O x y -> le O (uapply C u x) (uapply C u y).

(** operator< never holds between == objects and decides between others *)
Definition ltb_ok {L U} (O : lops L) (C : clientops L U) (ltb : nat -> ef L U -> ef L U -> bool) : Prop :=
  forall k a b, ltb k a b = false -> ltb k b a = false -> efEqb O C a b = true.

Section P.
  Context {L U : Type}.
  Variable O : lops L.
  Variable C : clientops L U.
  Variable soo : bool.
  Variable ltb : nat -> ef L U -> ef L U -> bool.
  Hypothesis LO : lops_ok O.

  Notation apply := (apply O C).
  Notation efEqb := (efEqb O C).
  Notation compose := (compose O C soo).
  Notation create := (create O ltb).
  Notation join := (join O C soo ltb).
  Notation isConstant := (isConstant C).
  Notation "x <== y" := (le O x y) (at level 70).

  Let SL := lo_sl O LO.
  Lemma leqb_spec x y : leqb O x y = true <-> x = y. Proof. apply (lo_eqb O LO). Qed.
  Lemma leqb_refl x : leqb O x x = true. Proof. now apply leqb_spec. Qed.
  Lemma le_refl x : x <== x. Proof. apply (sl_idem _ _ _ _ SL). Qed.
  Lemma le_trans x y z : x <== y -> y <== z -> x <== z.
  Proof. unfold le. intros H1 H2. rewrite <- H2, (sl_assoc _ _ _ _ SL), H1. reflexivity. Qed.
  Lemma le_antisym x y : x <== y -> y <== x -> x = y.
  Proof. unfold le. intros H1 H2. rewrite <- H1. rewrite (sl_comm _ _ _ _ SL). congruence. Qed.
  Lemma le_top x : ltop O <== x. Proof. apply (sl_top _ _ _ _ SL). Qed.
  Lemma le_bot x : x <== lbot O.
  Proof. unfold le. rewrite (sl_comm _ _ _ _ SL). apply (sl_bot _ _ _ _ SL). Qed.
  Lemma le_joinl x y : x <== ljoin O x y.
  Proof. unfold le. now rewrite (sl_assoc _ _ _ _ SL), (sl_idem _ _ _ _ SL). Qed.
  Lemma le_joinr x y : y <== ljoin O x y.
  Proof. rewrite (sl_comm _ _ _ _ SL). apply le_joinl. Qed.
  Lemma le_lub x y z : x <== z -> y <== z -> ljoin O x y <== z.
  Proof. unfold le. intros H1 H2. rewrite <- (sl_assoc _ _ _ _ SL). congruence. Qed.

  (** *** computeTarget *)
  Definition joinAll (x : L) (v : list (ef L U)) (s : L) : L :=
    fold_left (fun a e => ljoin O a (apply e x)) v s.

  Lemma joinAll_bot x v : joinAll x v (lbot O) = lbot O.
  Proof.
    induction v as [|e v IH]; auto. unfold joinAll in *. cbn. now rewrite (sl_bot _ _ _ _ SL).
  Qed.

  Lemma apply_EJoin n s v x : apply (EJoin n s v) x = joinAll x v s.
  Proof.
    cbn [EdgeFunctionModel.apply]. revert s. induction v as [|e v IH]; intros s; auto.
    change (joinAll x (e :: v) s) with (joinAll x v (ljoin O s (apply e x))).
    cbv zeta. destruct (leqb O (ljoin O s (apply e x)) (lbot O)) eqn:E.
    - apply leqb_spec in E. rewrite E. now rewrite joinAll_bot.
    - apply IH.
  Qed.

  Lemma joinAll_seed x v : forall s, s <== joinAll x v s.
  Proof.
    induction v as [|e v IH]; intros s; [apply le_refl|].
    unfold joinAll in *. cbn. eapply le_trans; [|apply IH]. apply le_joinl.
  Qed.

  Lemma joinAll_In x e v : In e v -> forall s, apply e x <== joinAll x v s.
  Proof.
    induction v as [|a v IH]; intros Hin s; [destruct Hin|].
    unfold joinAll in *. cbn. destruct Hin as [->|Hin]; [|auto].
    eapply le_trans; [|apply joinAll_seed]. apply le_joinr.
  Qed.

  Lemma joinAll_lub x v z : forall s, s <== z -> (forall e, In e v -> apply e x <== z) ->
    joinAll x v s <== z.
  Proof.
    induction v as [|e v IH]; intros s Hs Hv; auto.
    unfold joinAll in *. cbn. apply IH; [apply le_lub; auto; apply Hv; now left|].
    intros e' He'. apply Hv. now right.
  Qed.

  (** *** monotonicity *)
  Lemma apply_mono : client_mono O C -> forall f x y, x <== y -> apply f x <== apply f y.
  Proof.
    intros CM. induction f using ef_nind; intros x y Hxy; try (cbn; auto using le_refl; fail).
    - rewrite !apply_EJoin. apply joinAll_lub; [apply joinAll_seed|].
      intros e He. rewrite Forall_forall in H. eapply le_trans; [apply H; eauto|].
      now apply joinAll_In.
  Qed.

  Section CO.
  Hypothesis CO : client_ok O C.

  Lemma isConstant_sound f x y : isConstant f = true -> apply f x = apply f y.
  Proof. destruct f; cbn; auto; try discriminate. apply (co_const _ _ CO). Qed.

  Lemma efEqb_sound : forall f g x, efEqb f g = true -> apply f x = apply g x.
  Proof.
    induction f using ef_nind; intros [] x; try (cbn; auto; discriminate).
    - cbn. intros E. now apply leqb_spec in E.
    - intros E. rewrite !apply_EJoin.
      cbn [EdgeFunctionModel.efEqb] in E. rewrite !andb_true_iff in E. destruct E as [[_ Es] Ev].
      apply leqb_spec in Es. subst seed. revert s vec0 Ev.
      induction vec as [|a vec IH]; intros s [|b w] Ev; try discriminate; auto.
      apply andb_true_iff in Ev as [Eab Ev].
      inversion_clear H. unfold joinAll in *. cbn.
      match goal with h : forall g y, _ -> apply a y = _ |- _ => rewrite (h _ _ Eab) end.
      apply IH; auto.
    - cbn. rewrite !andb_true_iff. intros [[_ E1] E2]. rewrite (IHf1 _ _ E1). now apply IHf2.
    - cbn. rewrite !andb_true_iff. intros [E1 E2]. rewrite (IHf1 _ _ E1). now apply IHf2.
    - cbn. apply (co_eqb _ _ CO).
  Qed.

  Lemma defaultCompose_exact f g h x :
    defaultComposeOrNull C f g = Some h -> apply h x = apply g (apply f x).
  Proof.
    unfold defaultComposeOrNull. destruct g; cbn; try discriminate; intros [= <-] || intros E; auto.
    destruct (uconst C u) eqn:Eu; [|discriminate]. injection E as <-. now apply (co_const _ _ CO).
  Qed.

  Lemma constOf_apply v x : apply (constOf O v) x = v.
  Proof.
    unfold constOf. destruct (leqb O (lbot O) v) eqn:E1; [now apply leqb_spec in E1|].
    destruct (leqb O (ltop O) v) eqn:E2; [now apply leqb_spec in E2|]. reflexivity.
  Qed.

  Lemma compose_EConst v g x : apply (compose (EConst v) g) x = apply g v.
  Proof.
    cbn [EdgeFunctionModel.compose].
    destruct (defaultComposeOrNull C (EConst v) g) as [h|] eqn:E; [now apply (defaultCompose_exact _ _ _ x) in E|].
    cbv zeta. destruct (negb soo && leqb O (apply g v) v) eqn:E1; [|apply constOf_apply].
    apply andb_true_iff in E1 as [_ E1]. apply leqb_spec in E1. cbn. congruence.
  Qed.

  (** C13, over-approximation *)
  Lemma compose_sound : client_mono O C ->
    forall f g x, apply g (apply f x) <== apply (compose f g) x.
  Proof.
    intros CM. induction f using ef_nind; intros g x.
    - apply le_refl.
    - cbn [EdgeFunctionModel.compose]. destruct (isConstant g) eqn:E.
      + rewrite (isConstant_sound g x (apply EBot x) E). apply le_refl.
      + apply le_bot.
    - cbn [EdgeFunctionModel.compose].
      assert (apply g (apply ETop x) <== apply g x) by (apply apply_mono; auto; apply le_top).
      destruct g; auto. apply le_refl.
    - rewrite compose_EConst. apply le_refl.
    - cbn [EdgeFunctionModel.compose].
      destruct (defaultComposeOrNull C (EJoin n s vec) g) as [h|] eqn:E.
      + rewrite (defaultCompose_exact _ _ _ x E). apply le_refl.
      + apply le_refl.
    - cbn [EdgeFunctionModel.compose].
      destruct (defaultComposeOrNull C (EJComp n f1 f2) g) as [h|] eqn:E.
      + rewrite (defaultCompose_exact _ _ _ x E). apply le_refl.
      + cbn. eapply le_trans; [apply IHf2|]. apply IHf1.
    - cbn [EdgeFunctionModel.compose].
      destruct (defaultComposeOrNull C (EComp f1 f2) g) as [h|] eqn:E.
      + rewrite (defaultCompose_exact _ _ _ x E). apply le_refl.
      + cbn. eapply le_trans; [apply IHf2|]. apply IHf1.
    - cbn. rewrite (co_compose _ _ CO). apply le_refl.
  Qed.

  (** No AllTop/AllBottom at a position where composition dispatches on it *)
  Fixpoint no_extremes (f : ef L U) : bool :=
    match f with
    | EBot | ETop => false
    | EJComp _ a b | EComp a b => no_extremes a && no_extremes b
    | _ => true
    end.

  Lemma compose_exact : forall f g x, no_extremes f = true ->
    apply (compose f g) x = apply g (apply f x).
  Proof.
    induction f using ef_nind; intros g x Hn; try discriminate; auto.
    - rewrite compose_EConst. reflexivity.
    - cbn [EdgeFunctionModel.compose].
      destruct (defaultComposeOrNull C (EJoin n s vec) g) as [h|] eqn:E; auto.
      now apply defaultCompose_exact.
    - cbn in Hn. apply andb_true_iff in Hn as [H1 H2]. cbn [EdgeFunctionModel.compose].
      destruct (defaultComposeOrNull C (EJComp n f1 f2) g) as [h|] eqn:E;
        [now apply defaultCompose_exact|].
      rewrite IHf1, IHf2 by auto. reflexivity.
    - cbn in Hn. apply andb_true_iff in Hn as [H1 H2]. cbn [EdgeFunctionModel.compose].
      destruct (defaultComposeOrNull C (EComp f1 f2) g) as [h|] eqn:E;
        [now apply defaultCompose_exact|].
      rewrite IHf1, IHf2 by auto. reflexivity.
    - cbn. apply (co_compose _ _ CO).
  Qed.

  (** With strict client functions (bot stays bot) and AllBottom only, also exact *)
  Lemma compose_AllBottom_exact g x :
    isConstant g = true \/ apply g (lbot O) = lbot O ->
    apply (compose EBot g) x = apply g (apply EBot x).
  Proof.
    intros Hg. cbn. destruct (isConstant g) eqn:E; [now apply isConstant_sound|].
    destruct Hg; [discriminate|auto].
  Qed.

  (** *** join *)
  Hypothesis LTB : ltb_ok O C ltb.

  Lemma set_union_cons a l b r :
    set_union ltb (a :: l) (b :: r) =
      if ltb (length (a :: l) + length (b :: r)) a b then a :: set_union ltb l (b :: r)
      else if ltb (length (a :: l) + length (b :: r)) b a then b :: set_union ltb (a :: l) r
      else a :: set_union ltb l r.
  Proof. reflexivity. Qed.
  Lemma set_union_nil_r l : set_union ltb l [] = l.
  Proof. now destruct l. Qed.

  Lemma set_union_In : forall l r,
    (forall a, In a l -> In a (set_union ltb l r)) /\
    (forall b, In b r -> In b (set_union ltb l r) \/
                         exists c, In c (set_union ltb l r) /\ efEqb c b = true).
  Proof.
    induction l as [|a l IHl]; intros r; [split; [intros a []|cbn; auto]|].
    induction r as [|b r IHr]; [rewrite set_union_nil_r; split; [auto|intros b []]|].
    rewrite set_union_cons.
    destruct (ltb _ a b) eqn:E1; [|destruct (ltb _ b a) eqn:E2].
    - destruct (IHl (b :: r)) as [H1 H2]. split.
      + intros x [->|Hx]; [now left|right; auto].
      + intros x Hx. destruct (H2 x Hx) as [H|(c & Hc & He)]; [left; now right|].
        right. exists c. split; auto. now right.
    - destruct IHr as [H1 H2]. split.
      + intros x Hx. right. auto.
      + intros x [->|Hx]; [left; now left|].
        destruct (H2 x Hx) as [H|(c & Hc & He)]; [left; now right|].
        right. exists c. split; auto. now right.
    - destruct (IHl r) as [H1 H2]. split.
      + intros x [->|Hx]; [now left|right; auto].
      + intros x [->|Hx].
        * right. exists a. split; [now left|]. eapply LTB; eauto.
        * destruct (H2 x Hx) as [H|(c & Hc & He)]; [left; now right|].
          right. exists c. split; auto. now right.
  Qed.

  (** nothing else gets in *)
  Lemma set_union_incl : forall l r c, In c (set_union ltb l r) -> In c l \/ In c r.
  Proof.
    induction l as [|a l IHl]; intros r; [cbn; auto|].
    induction r as [|b r IHr]; intros c; [rewrite set_union_nil_r; auto|].
    rewrite set_union_cons.
    destruct (ltb _ a b); [|destruct (ltb _ b a)]; intros [->|Hc];
      try (left; now left); try (right; now left).
    - destruct (IHl _ _ Hc) as [H|H]; auto. left. now right.
    - destruct (IHr _ Hc) as [H|H]; auto. right. now right.
    - destruct (IHl _ _ Hc) as [H|H]; [left|right]; now right.
  Qed.

  Lemma arrayAndSeed_apply n f x v s :
    arrayAndSeed O n f = (v, s) -> apply f x = joinAll x v s.
  Proof.
    assert (W : forall g, joinAll x [g] (ltop O) = apply g x).
    { intros g. unfold joinAll. cbn. apply (sl_top _ _ _ _ SL). }
    destruct f; cbn; try (intros [= <- <-]; symmetry; apply W).
    destruct (Nat.eqb n n0) eqn:E; intros [= <- <-].
    - apply (apply_EJoin n0).
    - symmetry. apply W.
  Qed.

  Lemma create_ub n f g x : apply f x <== apply (create n f g) x /\ apply g x <== apply (create n f g) x.
  Proof.
    unfold EdgeFunctionModel.create.
    destruct (arrayAndSeed O n f) as [lv ls] eqn:El, (arrayAndSeed O n g) as [rv rs] eqn:Er.
    rewrite (arrayAndSeed_apply _ _ x _ _ El), (arrayAndSeed_apply _ _ x _ _ Er).
    destruct (leqb O (ljoin O ls rs) (lbot O)); [split; apply le_bot|].
    destruct (Nat.ltb n (length (set_union ltb lv rv))); [split; apply le_bot|].
    rewrite apply_EJoin. destruct (set_union_In lv rv) as [Hl Hr]. split.
    - apply joinAll_lub.
      + eapply le_trans; [apply le_joinl|apply joinAll_seed].
      + intros e He. apply joinAll_In. auto.
    - apply joinAll_lub.
      + eapply le_trans; [apply le_joinr|apply joinAll_seed].
      + intros e He. destruct (Hr e He) as [H|(c & Hc & E)].
        * now apply joinAll_In.
        * rewrite <- (efEqb_sound c e x E). now apply joinAll_In.
  Qed.

  (** create is the exact join unless it falls back to AllBottom *)
  Lemma create_exact n f g x :
    create n f g <> EBot -> apply (create n f g) x = ljoin O (apply f x) (apply g x).
  Proof.
    intros Hne. apply le_antisym.
    2:{ apply le_lub; apply create_ub. }
    unfold EdgeFunctionModel.create in *.
    destruct (arrayAndSeed O n f) as [lv ls] eqn:El, (arrayAndSeed O n g) as [rv rs] eqn:Er.
    rewrite (arrayAndSeed_apply _ _ x _ _ El), (arrayAndSeed_apply _ _ x _ _ Er).
    destruct (leqb O (ljoin O ls rs) (lbot O)); [congruence|].
    destruct (Nat.ltb n (length (set_union ltb lv rv))); [congruence|].
    rewrite apply_EJoin. apply joinAll_lub.
    - apply le_lub; [eapply le_trans; [apply joinAll_seed|apply le_joinl]
                    |eapply le_trans; [apply joinAll_seed|apply le_joinr]].
    - intros e He. destruct (set_union_incl _ _ _ He).
      + eapply le_trans; [apply joinAll_In; eassumption|apply le_joinl].
      + eapply le_trans; [apply joinAll_In; eassumption|apply le_joinr].
  Qed.

  Lemma ub_self f x : apply f x <== apply f x /\ ltop O <== apply f x.
  Proof. split; [apply le_refl|apply le_top]. Qed.

  Lemma defaultJoin_ub n f g h x :
    defaultJoinOrNull O C ltb n f g = Some h -> apply f x <== apply h x /\ apply g x <== apply h x.
  Proof.
    assert (W : forall g, (if efEqb g f then Some f else None) = Some h ->
              apply f x <== apply h x /\ apply g x <== apply h x).
    { intros g'. destruct (efEqb g' f) eqn:E; [|discriminate]. intros [= <-].
      rewrite (efEqb_sound _ _ x E). split; apply le_refl. }
    unfold defaultJoinOrNull. destruct g; intros E; try (apply W; exact E).
    - destruct (efEqb EId f) eqn:E1; [injection E as <-; rewrite (efEqb_sound _ _ x E1); split; apply le_refl|].
      destruct (Nat.ltb 0 n); injection E as <-; [apply create_ub|split; apply le_bot].
    - injection E as <-. split; apply le_bot.
    - injection E as <-. apply ub_self.
  Qed.

  Lemma joinOpaque_ub f g x :
    match f with EId | EBot | ETop | EConst _ => False | _ => True end ->
    apply f x <== apply (joinOpaque O C ltb f g) x /\ apply g x <== apply (joinOpaque O C ltb f g) x.
  Proof.
    destruct f; intros H; try contradiction; cbn [joinOpaque].
    - destruct (defaultJoinOrNull O C ltb n (EJoin n seed vec) g) eqn:E.
      + exact (defaultJoin_ub n _ _ _ x E).
      + apply create_ub.
    - assert (W : apply (EJComp n f1 f2) x <== apply (if efEqb g (EJComp n f1 f2) then EJComp n f1 f2 else create n (EJComp n f1 f2) g) x /\
                  apply g x <== apply (if efEqb g (EJComp n f1 f2) then EJComp n f1 f2 else create n (EJComp n f1 f2) g) x).
      { destruct (efEqb g (EJComp n f1 f2)) eqn:E; [|apply create_ub].
        rewrite (efEqb_sound _ _ x E). split; apply le_refl. }
      destruct g; try exact W.
      + split; apply le_bot.
      + apply ub_self.
    - apply (co_cjoin _ _ CO).
    - apply (co_join _ _ CO).
  Qed.

  Lemma joinConst_ub v g x :
    v <== apply (joinConst O C soo ltb v g) x /\ apply g x <== apply (joinConst O C soo ltb v g) x.
  Proof.
    unfold joinConst. destruct (defaultJoinOrNull O C ltb 0 (EConst v) g) as [h|] eqn:E.
    { apply (defaultJoin_ub 0 (EConst v) g h x) in E. exact E. }
    destruct (isConstant g) eqn:Ec; cbn [negb].
    - cbv zeta. rewrite (isConstant_sound g x (ltop O) Ec).
      destruct (leqb O (lbot O) _); [split; apply le_bot|].
      destruct (negb soo && leqb O _ (apply g (ltop O))) eqn:E1.
      + apply andb_true_iff in E1 as [_ E1]. apply leqb_spec in E1.
        rewrite (isConstant_sound g x (ltop O) Ec). split; [|apply le_refl]. exact E1.
      + destruct (negb soo && leqb O _ v) eqn:E2.
        * apply andb_true_iff in E2 as [_ E2]. apply leqb_spec in E2. cbn.
          split; [apply le_refl|].
          pose proof (le_joinr v (apply g (ltop O))) as W. now rewrite E2 in W.
        * cbn. split; [apply le_joinl|apply le_joinr].
    - assert (Hg : match g with EId | EBot | ETop | EConst _ => False | _ => True end).
      { destruct g; cbn in Ec, E; try discriminate; exact I. }
      destruct (joinOpaque_ub g (EConst v) x Hg). now split.
  Qed.

  (** C14 *)
  Lemma join_ub f g x : apply f x <== apply (join f g) x /\ apply g x <== apply (join f g) x.
  Proof.
    destruct f; cbn [EdgeFunctionModel.join].
    - destruct g; try (apply and_comm; apply joinOpaque_ub; exact I);
        try (split; (apply le_refl || apply le_bot || apply le_top); fail).
    - split; apply le_bot.
    - split; [apply le_top|apply le_refl].
    - apply joinConst_ub.
    - apply joinOpaque_ub. exact I.
    - apply joinOpaque_ub. exact I.
    - apply joinOpaque_ub. exact I.
    - apply joinOpaque_ub. exact I.
  Qed.

  Lemma efEqb_refl : (forall u, ueqb C u u = true) -> forall f, efEqb f f = true.
  Proof.
    intros CR. induction f using ef_nind; cbn [EdgeFunctionModel.efEqb]; auto using leqb_refl.
    - rewrite Nat.eqb_refl, leqb_refl. cbn.
      induction vec as [|a vec IH]; auto. inversion_clear H. rewrite H0. cbn. auto.
    - now rewrite Nat.eqb_refl, IHf1, IHf2.
    - now rewrite IHf1, IHf2.
  Qed.

  (** Joining with an equal function changes nothing *)
  Lemma join_self :
    (forall u, ueqb C u u = true) ->
    forall f g, efEqb g f = true ->
    match f with EComp _ _ | EUser _ => False | _ => True end ->
    join f g = f.
  Proof.
    intros CR f g E Hf.
    assert (W : forall n h, efEqb g h = true ->
              match g with EBot | ETop => False | _ => True end ->
              defaultJoinOrNull O C ltb n h g = Some h).
    { intros n h Eh Hg. unfold defaultJoinOrNull. destruct g; try contradiction; rewrite Eh; reflexivity. }
    destruct f; try contradiction.
    - destruct g; try discriminate. reflexivity.
    - reflexivity.
    - destruct g; try discriminate. reflexivity.
    - cbn [EdgeFunctionModel.join]. unfold joinConst. rewrite W; auto.
      destruct g; auto; discriminate.
    - cbn [EdgeFunctionModel.join joinOpaque]. rewrite W; auto. destruct g; auto; discriminate.
    - cbn [EdgeFunctionModel.join joinOpaque]. destruct g; try discriminate. now rewrite E.
  Qed.
  End CO.

  (** *** constants stay proper values: NonTopBotValue::unwrap is never applied
      to top or bottom *)
  Fixpoint properConsts (f : ef L U) : Prop :=
    match f with
    | EConst v => v <> ltop O /\ v <> lbot O
    | EJoin _ _ vec => (fix go l := match l with [] => True | e :: r => properConsts e /\ go r end) vec
    | EJComp _ a b | EComp a b => properConsts a /\ properConsts b
    | _ => True
    end.

  Lemma properConsts_EJoin n s v : properConsts (EJoin n s v) <-> Forall properConsts v.
  Proof.
    cbn. induction v as [|e v IH]; [split; auto|].
    rewrite IH. split; [intros [? ?]; auto|intros H; inversion H; auto].
  Qed.

  Lemma constOf_proper v : properConsts (constOf O v).
  Proof.
    unfold constOf. destruct (leqb O (lbot O) v) eqn:E1; cbn; auto.
    destruct (leqb O (ltop O) v) eqn:E2; cbn; auto.
    split; intros ->; now rewrite leqb_refl in *.
  Qed.

  Lemma default_proper f g h :
    properConsts f -> properConsts g -> defaultComposeOrNull C f g = Some h -> properConsts h.
  Proof.
    unfold defaultComposeOrNull. destruct g; cbn; intros Hf Hg E; try discriminate;
      try (injection E as <-; auto).
    destruct (uconst C u); [|discriminate]. injection E as <-. exact I.
  Qed.

  Hypothesis UC : forall u g, properConsts g -> properConsts (ucompose C u g).
  Hypothesis UJ : forall u g, properConsts g -> properConsts (ujoin C u g).
  Hypothesis UCJ : forall a b g, properConsts (EComp a b) -> properConsts g -> properConsts (cjoin C a b g).

  Lemma compose_proper : forall f g, properConsts f -> properConsts g -> properConsts (compose f g).
  Proof.
    induction f using ef_nind; intros g Hf Hg; cbn [EdgeFunctionModel.compose]; auto.
    - now destruct (isConstant g).
    - destruct g; auto.
    - destruct (defaultComposeOrNull C (EConst v) g) eqn:E; [exact (default_proper _ _ _ Hf Hg E)|].
      cbv zeta. destruct (negb soo && _); auto. apply constOf_proper.
    - destruct (defaultComposeOrNull C (EJoin n s vec) g) eqn:E; [exact (default_proper _ _ _ Hf Hg E)|].
      split; auto.
    - destruct (defaultComposeOrNull C (EJComp n f1 f2) g) eqn:E; [exact (default_proper _ _ _ Hf Hg E)|].
      destruct Hf. apply IHf1; auto.
    - destruct (defaultComposeOrNull C (EComp f1 f2) g) eqn:E; [exact (default_proper _ _ _ Hf Hg E)|].
      destruct Hf. apply IHf1; auto.
  Qed.

  Lemma create_proper n f g : properConsts f -> properConsts g -> properConsts (create n f g).
  Proof.
    intros Hf Hg. unfold EdgeFunctionModel.create.
    assert (W : forall h, properConsts h -> Forall properConsts (fst (arrayAndSeed O n h))).
    { intros h Hh. destruct h; cbn; try (constructor; auto; fail).
      destruct (Nat.eqb n n0); cbn; [now apply properConsts_EJoin in Hh|constructor; auto]. }
    pose proof (W f Hf) as Wf. pose proof (W g Hg) as Wg.
    destruct (arrayAndSeed O n f) as [lv ls], (arrayAndSeed O n g) as [rv rs]. cbn in Wf, Wg.
    destruct (leqb O _ _); [exact I|]. destruct (Nat.ltb n _); [exact I|].
    apply properConsts_EJoin. rewrite Forall_forall in *. intros e He.
    destruct (set_union_incl _ _ _ He); auto.
  Qed.

  Lemma defaultJoin_proper n f g h : properConsts f -> properConsts g ->
    defaultJoinOrNull O C ltb n f g = Some h -> properConsts h.
  Proof.
    intros Hf Hg. unfold defaultJoinOrNull.
    destruct g; try (intros [= <-]; auto; fail); destruct (efEqb _ f);
      try (intros [= <-]; auto; fail); try discriminate.
    destruct (Nat.ltb 0 n); intros [= <-]; [apply create_proper; auto|exact I].
  Qed.

  Lemma joinOpaque_proper f g : properConsts f -> properConsts g -> properConsts (joinOpaque O C ltb f g).
  Proof.
    intros Hf Hg. destruct f; auto; cbn [joinOpaque].
    - destruct (defaultJoinOrNull O C ltb n (EJoin n seed vec) g) eqn:E;
        [exact (defaultJoin_proper _ _ _ _ Hf Hg E)|apply create_proper; auto].
    - destruct g; auto; destruct (efEqb _ (EJComp n f1 f2)); auto; apply create_proper; auto.
    - now apply UCJ.
    - now apply UJ.
  Qed.

  Lemma joinConst_proper v g : properConsts (EConst v) -> properConsts g ->
    properConsts (joinConst O C soo ltb v g).
  Proof.
    intros Hf Hg. unfold joinConst.
    destruct (defaultJoinOrNull O C ltb 0 (EConst v) g) eqn:E; [exact (defaultJoin_proper _ _ _ _ Hf Hg E)|].
    destruct (negb (isConstant g)); [apply joinOpaque_proper; auto|]. cbv zeta.
    destruct (leqb O (lbot O) (ljoin O v (apply g (ltop O)))) eqn:E1; [exact I|].
    destruct (negb soo && _); auto. destruct (negb soo && _); auto.
    split.
    - intros Et. destruct Hf as [Hv _]. apply Hv. apply le_antisym; [|apply le_top].
      rewrite <- Et. apply le_joinl.
    - intros Eb. rewrite Eb, leqb_refl in E1. discriminate.
  Qed.

  Lemma join_proper f g : properConsts f -> properConsts g -> properConsts (join f g).
  Proof.
    intros Hf Hg. destruct f; cbn [EdgeFunctionModel.join]; auto using joinConst_proper, joinOpaque_proper.
    destruct g; auto; try (apply joinOpaque_proper; auto; exact I).
  Qed.
End P.

(** *** Stability of repeated joins when equal functions are shared and
    operator< is a strict total order on them *)
Section Stable.
  Context {L U : Type}.
  Variable O : lops L.
  Variable C : clientops L U.
  Variable soo : bool.
  Variable lt : ef L U -> ef L U -> bool.
  Hypothesis LO : lops_ok O.
  Hypothesis EQ : forall f g, efEqb O C f g = true <-> f = g.
  Hypothesis lt_irrefl : forall f, lt f f = false.
  Hypothesis lt_trans : forall f g h, lt f g = true -> lt g h = true -> lt f h = true.
  Hypothesis lt_total : forall f g, lt f g = false -> lt g f = false -> f = g.
  Let ltb (_ : nat) := lt.

  Fixpoint sorted (l : list (ef L U)) : Prop :=
    match l with
    | [] => True
    | a :: r => (forall b, In b r -> lt a b = true) /\ sorted r
    end.

  Lemma lt_asym f g : lt f g = true -> lt g f = false.
  Proof.
    intros H. destruct (lt g f) eqn:E; auto. pose proof (lt_trans _ _ _ H E). now rewrite lt_irrefl in *.
  Qed.

  Lemma union_In l : forall r c, In c (set_union ltb l r) <-> In c l \/ In c r.
  Proof.
    assert (LT : forall k a b, ltb k a b = false -> ltb k b a = false -> a = b) by (intros k; apply lt_total).
    induction l as [|a l IHl]; intros r; [cbn; tauto|].
    induction r as [|b r IHr]; intros c; [cbn; tauto|].
    rewrite set_union_cons.
    destruct (ltb _ a b) eqn:E1; [|destruct (ltb _ b a) eqn:E2].
    - cbn [In]. rewrite IHl. cbn [In]. tauto.
    - cbn [In]. rewrite IHr. cbn [In]. tauto.
    - pose proof (LT _ _ _ E1 E2). subst b. cbn [In]. rewrite IHl. tauto.
  Qed.

  Lemma union_sorted l : forall r, sorted l -> sorted r -> sorted (set_union ltb l r).
  Proof.
    induction l as [|a l IHl]; intros r Hl Hr; auto.
    induction r as [|b r IHr]; [now rewrite set_union_nil_r|].
    rewrite set_union_cons. destruct Hl as [Ha Hl], Hr as [Hb Hr].
    destruct (ltb _ a b) eqn:E1; [|destruct (ltb _ b a) eqn:E2].
    - split; [|apply IHl; auto; split; auto]. intros c Hc. apply union_In in Hc as [Hc|[<-|Hc]]; auto.
      eapply lt_trans; [exact E1|auto].
    - split; [|apply IHr; auto]. intros c Hc. apply union_In in Hc as [[<-|Hc]|Hc]; auto.
      eapply lt_trans; [exact E2|auto].
    - assert (a = b) by (apply lt_total; auto). subst b.
      split; [|apply IHl; auto]. intros c Hc. apply union_In in Hc as [Hc|Hc]; auto.
  Qed.

  Lemma union_absorb l : forall r, sorted l -> sorted r -> (forall c, In c r -> In c l) ->
    set_union ltb l r = l.
  Proof.
    induction l as [|a l IHl]; intros [|b r] Hl Hr Hi; auto.
    - destruct (Hi b). now left.
    - rewrite set_union_cons. destruct Hl as [Ha Hl], Hr as [Hb Hr].
      destruct (Hi b (or_introl eq_refl)) as [<-|Hin].
      + unfold ltb. rewrite lt_irrefl. f_equal. apply IHl; auto.
        intros c Hc. destruct (Hi c (or_intror Hc)) as [<-|]; auto.
        pose proof (Hb _ Hc) as E. now rewrite lt_irrefl in E.
      + unfold ltb. rewrite (Ha _ Hin). f_equal. apply IHl; auto; [split; auto|].
        intros c [<-|Hc]; auto.
        destruct (Hi c (or_intror Hc)) as [<-|]; auto.
        pose proof (lt_asym _ _ (Ha _ Hin)) as E. rewrite (Hb _ Hc) in E. discriminate.
  Qed.

  (** JoinEdgeFunction objects keep their functions sorted *)
  Definition sortedTop (f : ef L U) : Prop :=
    match f with EJoin _ _ v => sorted v | _ => True end.

  Lemma arrayAndSeed_sorted n f : sortedTop f -> sorted (fst (arrayAndSeed O n f)).
  Proof.
    assert (W : forall f : ef L U, sorted [f]) by (intros g; cbn; split; [intros b []|exact I]).
    intros Hf. destruct f; try apply W. cbn. destruct (Nat.eqb n n0); auto. apply W.
  Qed.

  Lemma create_sorted n f g : sortedTop f -> sortedTop g -> sortedTop (create O ltb n f g).
  Proof.
    intros Hf Hg. unfold create.
    pose proof (arrayAndSeed_sorted n f Hf). pose proof (arrayAndSeed_sorted n g Hg).
    destruct (arrayAndSeed O n f), (arrayAndSeed O n g). cbn [fst] in *.
    destruct (leqb O _ _); [exact I|]. destruct (Nat.ltb n _); [exact I|].
    now apply union_sorted.
  Qed.

  Lemma create_again n f g c s v :
    sortedTop f -> sortedTop g -> create O ltb n f g = EJoin n s v -> c = f \/ c = g ->
    create O ltb n (EJoin n s v) c = EJoin n s v /\ (c = EId -> 0 < n).
  Proof.
    intros Hf Hg Hc Hin. pose proof (create_sorted n f g Hf Hg) as Hs. rewrite Hc in Hs.
    assert (Hsc : sortedTop c) by (destruct Hin; subst; auto).
    pose proof (arrayAndSeed_sorted n c Hsc) as Hcs.
    unfold create in Hc |- *.
    assert (Ev : arrayAndSeed O n (EJoin n s v) = (v, s)) by (cbn; now rewrite Nat.eqb_refl).
    rewrite Ev.
    destruct (arrayAndSeed O n f) as [lv ls] eqn:El, (arrayAndSeed O n g) as [rv rs] eqn:Er.
    destruct (leqb O (ljoin O ls rs) (lbot O)) eqn:E1; [discriminate|].
    destruct (Nat.ltb n (length (set_union ltb lv rv))) eqn:E2; [discriminate|].
    injection Hc as <- <-.
    destruct (arrayAndSeed O n c) as [cv cs] eqn:Ec. cbn in Hcs.
    assert (Hcv : (cv, cs) = (lv, ls) \/ (cv, cs) = (rv, rs)) by (destruct Hin; subst; [left|right]; congruence).
    assert (Ej : ljoin O (ljoin O ls rs) cs = ljoin O ls rs).
    { pose proof (lo_sl O LO) as SL. rewrite (sl_comm _ _ _ _ SL).
      destruct Hcv as [[= -> ->]|[= -> ->]]; [apply (le_joinl O LO)|apply (le_joinr O LO)]. }
    rewrite Ej, E1.
    assert (Eu : set_union ltb (set_union ltb lv rv) cv = set_union ltb lv rv).
    { apply union_absorb; auto. intros x Hx. apply union_In.
      destruct Hcv as [[= -> ->]|[= -> ->]]; auto. }
    rewrite Eu, E2. split; auto.
    intros ->. cbn in Ec. injection Ec as <- <-.
    assert (Hi : In EId (set_union ltb lv rv)).
    { apply union_In. destruct Hcv as [[= <- <-]|[= <- <-]]; [left|right]; now left. }
    apply Nat.ltb_ge in E2. destruct (set_union ltb lv rv); [destruct Hi|cbn in E2; lia].
  Qed.

  Lemma create_shape n f g : create O ltb n f g = EBot \/ exists s v, create O ltb n f g = EJoin n s v.
  Proof.
    unfold create. destruct (arrayAndSeed O n f), (arrayAndSeed O n g).
    destruct (leqb O _ _); auto. destruct (Nat.ltb n _); eauto.
  Qed.

  Lemma create_stable n f g c :
    sortedTop f -> sortedTop g -> c = f \/ c = g -> c <> EBot ->
    join O C soo ltb (create O ltb n f g) c = create O ltb n f g.
  Proof.
    intros Hf Hg Hc Hb. destruct (create_shape n f g) as [->|(s & v & E)]; [reflexivity|].
    rewrite E. destruct (create_again _ _ _ c _ _ Hf Hg E Hc) as [Ea En].
    cbn [join joinOpaque]. unfold defaultJoinOrNull.
    destruct c; try congruence; try (destruct (efEqb O C _ _); auto; fail).
    - destruct (efEqb O C EId (EJoin n s v)); auto.
      rewrite (proj2 (Nat.ltb_lt 0 n)) by auto. auto.
  Qed.

  Definition isClient (f : ef L U) : Prop :=
    match f with EComp _ _ | EUser _ => True | _ => False end.

  Lemma join_EBot_r f : ~ isClient f -> join O C soo ltb f EBot = EBot.
  Proof. destruct f; cbn; tauto. Qed.

  Lemma opaque_stable f g c :
    ~ isClient f -> sortedTop f -> sortedTop g -> c = f \/ c = g ->
    match f with EId | EBot | ETop | EConst _ => False | _ => True end ->
    join O C soo ltb (joinOpaque O C ltb f g) c = joinOpaque O C ltb f g.
  Proof.
    intros Hcl Hf Hg Hc Hshape.
    assert (R : forall f, efEqb O C f f = true) by (intros; now apply EQ).
    destruct f; try contradiction; try (destruct Hcl; exact I).
    - assert (Self : join O C soo ltb (EJoin n seed vec) (EJoin n seed vec) = EJoin n seed vec).
      { cbn [join joinOpaque]. unfold defaultJoinOrNull. now rewrite R. }
      cbn [joinOpaque]. unfold defaultJoinOrNull at 1 2.
      destruct (match g with EBot | ETop => true | _ => false end) eqn:Eg.
      { destruct g; try discriminate; [reflexivity|]. destruct Hc as [->| ->]; auto. }
      assert (Hcb : c <> EBot) by (destruct Hc; subst; [discriminate|destruct g; discriminate]).
      destruct (efEqb O C g (EJoin n seed vec)) eqn:Ee.
      { destruct g; try discriminate. apply EQ in Ee. destruct Hc as [->| ->]; rewrite ?Ee; auto. }
      destruct g; try discriminate; try (apply create_stable; auto; fail).
      destruct (Nat.ltb 0 n); [apply create_stable; auto|reflexivity].
    - assert (Self : join O C soo ltb (EJComp n f1 f2) (EJComp n f1 f2) = EJComp n f1 f2).
      { cbn [join joinOpaque]. now rewrite R. }
      destruct (match g with EBot | ETop => true | _ => false end) eqn:Eg.
      { destruct g; try discriminate; [reflexivity|]. cbn [joinOpaque]. destruct Hc as [->| ->]; auto. }
      assert (Hcb : c <> EBot) by (destruct Hc; subst; [discriminate|destruct g; discriminate]).
      assert (Ej : joinOpaque O C ltb (EJComp n f1 f2) g =
                   if efEqb O C g (EJComp n f1 f2) then EJComp n f1 f2 else create O ltb n (EJComp n f1 f2) g)
        by (destruct g; try discriminate; reflexivity).
      rewrite Ej. destruct (efEqb O C g (EJComp n f1 f2)) eqn:Ee.
      + apply EQ in Ee. destruct Hc as [->| ->]; rewrite ?Ee; auto.
      + apply create_stable; auto.
  Qed.

  Lemma join_stable f g :
    ~ isClient f -> ~ isClient g -> sortedTop f -> sortedTop g ->
    join O C soo ltb (join O C soo ltb f g) g = join O C soo ltb f g.
  Proof.
    intros Cf Cg Hf Hg.
    assert (R : forall f, efEqb O C f f = true) by (intros; now apply EQ).
    assert (LB : leqb O (lbot O) (lbot O) = true) by (apply (leqb_refl O LO)).
    assert (SelfC : forall v, join O C soo ltb (EConst v) (EConst v) = EConst v).
    { intros v. cbn [join]. unfold joinConst, defaultJoinOrNull. now rewrite R. }
    destruct f; try (destruct Cf; exact I).
    - (* EdgeIdentity *)
      destruct g; try reflexivity; try (destruct Cg; exact I);
        cbn [join]; apply opaque_stable; auto; cbn; auto.
    - reflexivity.
    - (* AllTop *)
      cbn [join]. destruct g; try reflexivity; try (destruct Cg; exact I); auto.
      + cbn [join joinOpaque]. unfold defaultJoinOrNull. now rewrite R.
      + cbn [join joinOpaque]. now rewrite R.
    - (* Constant *)
      destruct g; try (destruct Cg; exact I).
      + reflexivity.
      + reflexivity.
      + cbn [join]. reflexivity.
      + assert (Eh : join O C soo ltb (EConst v) (EConst v0) =
          if efEqb O C (EConst v0) (EConst v) then EConst v
          else if leqb O (lbot O) (ljoin O v v0) then EBot
          else if negb soo && leqb O (ljoin O v v0) v0 then EConst v0
          else if negb soo && leqb O (ljoin O v v0) v then EConst v
          else EConst (ljoin O v v0)).
        { cbn [join]. unfold joinConst, defaultJoinOrNull. now destruct (efEqb O C _ _). }
        rewrite Eh.
        destruct (efEqb O C (EConst v0) (EConst v)) eqn:E.
        { apply EQ in E. injection E as ->. apply SelfC. }
        destruct (leqb O (lbot O) (ljoin O v v0)) eqn:E1; [reflexivity|].
        destruct (negb soo && leqb O (ljoin O v v0) v0) eqn:E2; [apply SelfC|].
        destruct (negb soo && leqb O (ljoin O v v0) v) eqn:E3.
        * exact Eh.
        * assert (Ej : ljoin O (ljoin O v v0) v0 = ljoin O v v0).
          { pose proof (lo_sl O LO) as SL. rewrite (sl_comm _ _ _ _ SL). apply (le_joinr O LO). }
          cbn [join]. unfold joinConst, defaultJoinOrNull.
          destruct (efEqb O C (EConst v0) (EConst (ljoin O v v0))); auto.
          cbn [isConstant negb apply]. rewrite Ej, E1, E2.
          rewrite (leqb_refl O LO). now destruct (negb soo && true).
      + change (join O C soo ltb (EConst v) (EJoin n seed vec))
          with (joinOpaque O C ltb (EJoin n seed vec) (EConst v)).
        apply opaque_stable; auto; cbn; auto.
      + change (join O C soo ltb (EConst v) (EJComp n g1 g2))
          with (joinOpaque O C ltb (EJComp n g1 g2) (EConst v)).
        apply opaque_stable; auto; cbn; auto.
    - change (join O C soo ltb (EJoin n seed vec) g) with (joinOpaque O C ltb (EJoin n seed vec) g).
      apply opaque_stable; auto; cbn; auto.
    - change (join O C soo ltb (EJComp n f1 f2) g) with (joinOpaque O C ltb (EJComp n f1 f2) g).
      apply opaque_stable; auto; cbn; auto.
  Qed.
End Stable.
