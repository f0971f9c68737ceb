(** Proofs about ExplodedSuperGraphModel. *)
From Coq Require Import List Bool Arith Lia.
From Verif Require Import Assoc ExplodedSuperGraphModel ExplodedSuperGraphSpec.
Import ListNotations.

Section Proofs.
  Context {N D B : Type} `{EqDec N} `{EqDec D} `{EqDec B}.
  Variable blockOf : N -> B.
  Variable zero : D.
  Variable L : list (call N D).

  Local Notation edge := (edge L).
  Local Notation target := (target L).
  Local Notation seed := (seed L).
  Local Notation flow := (flow zero L).
  Local Notation skipEdge := (skipEdge zero L).
  Local Notation held := (held blockOf zero L).
  Local Notation follows := (follows zero L).

  Lemma nth_updAt f k (l : list (esgNode N D)) i :
    nth_error (updAt f k l) i = if i =? k then option_map f (nth_error l i) else nth_error l i.
  Proof.
    revert k i. induction l as [|a l IH]; intros [|k] [|i]; cbn; auto.
    - destruct (i =? k); reflexivity.
  Qed.
  Lemma length_updAt f k (l : list (esgNode N D)) : length (updAt f k l) = length l.
  Proof. revert k. induction l as [|a l IH]; intros [|k]; cbn; auto. Qed.

  Lemma nodeAt_snoc (l : list (esgNode N D)) nd m k :
    nodeAt (mkESG (l ++ [nd]) m) k = if k =? length l then Some nd else nth_error l k.
  Proof.
    unfold nodeAt; cbn [owner]. destruct (k =? length l) eqn:E.
    - apply Nat.eqb_eq in E. subst. rewrite nth_error_app2, Nat.sub_diag; [reflexivity|lia].
    - apply Nat.eqb_neq in E. destruct (lt_dec k (length l)).
      + apply nth_error_app1; auto.
      + rewrite (proj2 (nth_error_None (l ++ [nd]) k)), (proj2 (nth_error_None l k)); auto; try lia.
        rewrite app_length; cbn; lia.
  Qed.
  Lemma nodeAt_lt (g : esg N D) k nd : nodeAt g k = Some nd -> k < length (owner g).
  Proof. intros E. apply nth_error_Some. unfold nodeAt in E. congruence. Qed.

  (** What one call of saveEdge does. *)
  Inductive saved (g : esg N D) (predId : option nat) (m : N) (e : D) (s : N) (d : D)
    : bool -> esg N D -> Prop :=
  | sv_skip p : predId = Some p -> getNodeOrNull g s d = None ->
      saved g predId m e s d true
        (mkESG (owner g ++ [mkNode d m None []]) (aset (s, d) (length (owner g)) (vertexMap g)))
  | sv_skipped p k : predId = Some p -> getNodeOrNull g s d = Some k -> saved g predId m e s d true g
  | sv_merge p nd : predId = Some p -> getNodeOrNull g s d = None -> nodeAt g p = Some nd ->
      value nd = d -> blockOf (source nd) = blockOf s -> d <> zero ->
      saved g predId m e s d false (setVertex g (s, d) p)
  | sv_new : getNodeOrNull g s d = None ->
      saved g predId m e s d false
        (mkESG (owner g ++ [mkNode d m predId []])
           (aset (s, d) (length (owner g))
              (match predId with None => aset (m, e) (length (owner g)) (vertexMap g) | Some _ => vertexMap g end)))
  | sv_again k : getNodeOrNull g s d = Some k -> predId = Some k -> saved g predId m e s d false g
  | sv_relink k nd : getNodeOrNull g s d = Some k -> nodeAt g k = Some nd -> pred nd = None ->
      identityEdge blockOf zero g predId s d && eqb predId (Some k) = false ->
      saved g predId m e s d false
        (mkESG (updAt (fun nd => mkNode (value nd) m predId (neighbors nd)) k (owner g)) (vertexMap g))
  | sv_dup k nd q : getNodeOrNull g s d = Some k -> nodeAt g k = Some nd -> pred nd = Some q ->
      (Some q = predId \/ exists nb, In nb (neighbors nd) /\ predOf g nb = predId) ->
      identityEdge blockOf zero g predId s d && eqb predId (Some k) = false ->
      saved g predId m e s d false g
  | sv_neighbor k nd q : getNodeOrNull g s d = Some k -> nodeAt g k = Some nd -> pred nd = Some q ->
      identityEdge blockOf zero g predId s d && eqb predId (Some k) = false ->
      saved g predId m e s d false
        (mkESG (updAt (fun nd => mkNode (value nd) (source nd) (pred nd) (neighbors nd ++ [length (owner g)])) k
                  (owner g ++ [mkNode d m predId []]))
           (match predId with None => aset (m, e) (length (owner g)) (vertexMap g) | Some _ => vertexMap g end)).

  Lemma saveEdge_saved g predId m e s d sk g' :
    saveEdge blockOf zero g predId m e s d sk = Some g' -> saved g predId m e s d (sk && eqb d e) g'.
  Proof.
    unfold saveEdge. destruct (sk && eqb d e).
    - destruct predId as [p|]; [|discriminate].
      destruct (getNodeOrNull g s d) as [k|] eqn:E; cbn [makeNode]; intros [= <-].
      + econstructor; eauto.
      + unfold setVertex; cbn [owner vertexMap].
        replace (updAt _ _ _) with (owner g ++ [mkNode d m None []]).
        * econstructor; eauto.
        * clear. induction (owner g) as [|a l IH]; cbn; [reflexivity|]. f_equal. exact IH.
    - destruct (getNodeOrNull g s d) as [k|] eqn:E.
      + destruct (identityEdge blockOf zero g predId s d && eqb predId (Some k)) eqn:EI.
        * intros [= <-]. apply andb_true_iff in EI. destruct EI as [_ EI]. apply eqb_eq in EI.
          eapply sv_again; eauto.
        * unfold connect. destruct (nodeAt g k) as [nd|] eqn:En; [|discriminate].
          destruct (pred nd) as [q|] eqn:Ep.
          -- cbv beta iota zeta delta [makeNode].
             match goal with |- (if ?b then _ else _) = _ -> _ => destruct b eqn:Ec end; intros [= <-].
             ++ cbn [owner vertexMap]. eapply sv_neighbor; eauto.
             ++ eapply sv_dup; eauto. apply andb_false_iff in Ec. destruct Ec as [Ec|Ec].
                ** left. apply negb_false_iff in Ec. apply eqb_eq in Ec. exact Ec.
                ** right. assert (Hx : existsb (fun nb => eqb (predOf g nb) predId) (neighbors nd) = true).
                   { clear - Ec. induction (neighbors nd) as [|a l IH]; cbn in *; [discriminate|].
                     apply andb_false_iff in Ec. destruct Ec as [Ec|Ec].
                     - apply negb_false_iff in Ec. rewrite Ec. reflexivity.
                     - rewrite IH; auto. apply orb_true_r. }
                   apply existsb_exists in Hx. destruct Hx as [nb [Hi He]]. apply eqb_eq in He. eauto.
          -- intros [= <-]. eapply sv_relink; eauto.
      + destruct predId as [p|].
        * destruct (identityEdge blockOf zero g (Some p) s d) eqn:EI.
          -- intros [= <-]. cbn [identityEdge] in EI.
             destruct (nodeAt g p) as [nd|] eqn:En; [|discriminate].
             apply andb_true_iff in EI. destruct EI as [EI E3]. apply andb_true_iff in EI. destruct EI as [E1 E2].
             apply eqb_eq in E1. apply eqb_eq in E2. apply negb_true_iff in E3. apply Assoc.eqb_false in E3.
             eapply sv_merge; eauto.
          -- intros [= <-]. apply (sv_new g (Some p)); auto.
        * intros [= <-]. apply (sv_new g None); auto.
  Qed.

  Hypothesis FR : startsFresh L.
  Hypothesis LS : leavesStart L.
  Hypothesis OO : oneOrigin blockOf zero L.

  (** A fact carried along without change. *)
  Inductive carried (s : N) (d : D) : N -> Prop :=
  | ca_refl : carried s d s
  | ca_step n n' : carried s d n -> edge (n, d) (n', d) -> d <> zero -> carried s d n'.
  Lemma carried_follows s d n l y : carried s d n -> follows (s, d) l y -> follows (n, d) l y.
  Proof. induction 1; auto. intros Hf. econstructor 3; eauto. Qed.

  Definition linkedTo (g : esg N D) (k p : nat) : Prop :=
    exists nd, nodeAt g k = Some nd /\
      (k = p \/ pred nd = Some p \/
       exists q qd, In q (neighbors nd) /\ nodeAt g q = Some qd /\ pred qd = Some p).

  (** [ent k]: the instruction at which node [k] was created; [T]: the pairs
      reported so far, [F]: the flows recorded so far, [S0]: the pairs
      processed so far. *)
  Record inv (T : list (N * D)) (F : list ((N * D) * (N * D))) (S0 : list (N * D))
      (g : esg N D) (ent : nat -> N) : Prop := {
    i_keys : forall x k, afind x (vertexMap g) = Some k -> In x T \/ In x S0;
    i_T : forall x, In x T -> target x /\ exists k, afind x (vertexMap g) = Some k;
    i_val : forall x k, target x -> afind x (vertexMap g) = Some k -> exists nd, nodeAt g k = Some nd /\
      value nd = snd x /\ held (source nd) (snd x) (fst x) /\ carried (ent k) (snd x) (fst x) /\
      (fst x = ent k \/
       exists n', edge (n', snd x) x /\ target (n', snd x) /\ afind (n', snd x) (vertexMap g) = Some k /\
         snd x <> zero /\ blockOf (fst x) = blockOf (source nd) /\
         (forall y, edge y x -> y = (n', snd x)));
    i_node : forall k nd, nodeAt g k = Some nd -> exists e,
      edge (source nd, e) (ent k, value nd) /\
      match pred nd with
      | Some p => target (source nd, e) /\ afind (source nd, e) (vertexMap g) = Some p
      | None => seed (source nd, e) \/ skipEdge (source nd, e) (ent k, value nd)
      end;
    i_nb : forall k nd q, nodeAt g k = Some nd -> In q (neighbors nd) ->
      exists qd, nodeAt g q = Some qd /\ value qd = value nd /\ ent q = ent k;
    i_F : forall x y, In (x, y) F -> edge x y;
    i_link : forall x y, In (x, y) F -> target x -> exists p k,
      afind x (vertexMap g) = Some p /\ afind y (vertexMap g) = Some k /\ linkedTo g k p;
    i_seed : forall x y, In (x, y) F -> seed x -> exists k nd,
      afind y (vertexMap g) = Some k /\ nodeAt g k = Some nd /\ pred nd = None }.


  Lemma seed_not_target x : seed x -> target x -> False.
  Proof. intros [_ Hn] Ht. auto. Qed.
  Lemma skip_zero x y : skipEdge x y -> snd y = zero.
  Proof. intros [c [_ [_ [_ [_ [_ [_ Hz]]]]]]]. exact Hz. Qed.
  Lemma edge_target x y : edge x y -> target y.
  Proof. intros He. exists x. exact He. Qed.
  Lemma edge_src x y : edge x y -> exists c, In c L /\ src c = x.
  Proof. intros [c [Hc [Hs _]]]. eauto. Qed.

  Definition entNew (g : esg N D) (s : N) (ent : nat -> N) (k : nat) : N :=
    if k =? length (owner g) then s else ent k.
  Lemma entNew_old (g : esg N D) s ent k nd : nodeAt g k = Some nd -> entNew g s ent k = ent k.
  Proof.
    intros E. apply nodeAt_lt in E. unfold entNew. destruct (k =? length (owner g)) eqn:E'; auto.
    apply Nat.eqb_eq in E'. lia.
  Qed.
  Lemma nodeAt_old (g : esg N D) nd0 M k nd : nodeAt g k = Some nd ->
    nodeAt (mkESG (owner g ++ [nd0]) M) k = Some nd.
  Proof.
    intros E. rewrite nodeAt_snoc. pose proof (nodeAt_lt _ _ _ E).
    destruct (k =? length (owner g)) eqn:E'; [apply Nat.eqb_eq in E'; lia|exact E].
  Qed.

  Lemma inv_new T F F' S0 g ent m e s d pr M' :
    inv T F S0 g ent -> edge (m, e) (s, d) -> afind (s, d) (vertexMap g) = None ->
    afind (s, d) M' = Some (length (owner g)) ->
    (forall x, target x -> x <> (s, d) -> afind x M' = afind x (vertexMap g)) ->
    (forall x k, afind x M' = Some k -> x = (s, d) \/ In x S0 \/ afind x (vertexMap g) = Some k) ->
    match pr with
    | Some p => target (m, e) /\ afind (m, e) (vertexMap g) = Some p
    | None => seed (m, e) \/ skipEdge (m, e) (s, d)
    end ->
    (F' = F \/ F' = ((m, e), (s, d)) :: F /\ (pr = None -> seed (m, e))) ->
    inv ((s, d) :: T) F' S0 (mkESG (owner g ++ [mkNode d m pr []]) M') (entNew g s ent).
  Proof.
    intros I He Hn HM1 HM2 HM3 Hp HF.
    assert (Hentn : entNew g s ent (length (owner g)) = s) by (unfold entNew; rewrite Nat.eqb_refl; reflexivity).
    assert (Hnew : nodeAt (mkESG (owner g ++ [mkNode d m pr []]) M') (length (owner g)) = Some (mkNode d m pr []))
      by (rewrite nodeAt_snoc, Nat.eqb_refl; reflexivity).
    assert (HM4 : forall x k, target x -> afind x (vertexMap g) = Some k -> afind x M' = Some k).
    { intros x k Ht Hx. rewrite HM2; auto. intros ->. congruence. }
    assert (Hinv : forall k nd, nodeAt (mkESG (owner g ++ [mkNode d m pr []]) M') k = Some nd ->
              (k = length (owner g) /\ nd = mkNode d m pr []) \/ nodeAt g k = Some nd).
    { intros k nd Hk. rewrite nodeAt_snoc in Hk. destruct (k =? length (owner g)) eqn:E.
      - apply Nat.eqb_eq in E. injection Hk as <-. auto.
      - right. exact Hk. }
    constructor; cbn [vertexMap].
    - intros x k Hx. destruct (HM3 _ _ Hx) as [->|[Hs|Ho]]; [left; left; auto|auto|].
      destruct (i_keys _ _ _ _ _ I _ _ Ho); auto. left; right; auto.
    - intros x [<-|Hx].
      + split; [eapply edge_target; eauto|eauto].
      + destruct (i_T _ _ _ _ _ I x Hx) as [Ht [k Hk]]. split; eauto.
    - intros x k Ht Hx. destruct (eq_dec x (s, d)) as [->|Hne].
      + rewrite HM1 in Hx. injection Hx as <-. exists (mkNode d m pr []).
        cbn [fst snd value source]. rewrite Hentn.
        refine (conj Hnew (conj eq_refl (conj (held_start _ _ _ _ _ _ _ He) (conj _ (or_introl eq_refl))))).
        constructor.
      + rewrite HM2 in Hx; auto. destruct (i_val _ _ _ _ _ I x k Ht Hx) as [nd [Hnd [Hv [Hh [Hc Ho]]]]].
        exists nd. rewrite (entNew_old g s ent k nd Hnd).
        refine (conj (nodeAt_old _ _ _ _ _ Hnd) (conj Hv (conj Hh (conj Hc _)))).
        destruct Ho as [Ho|[n' [H1' [H2' [H3' [H4' [H5' H6']]]]]]]; [left; exact Ho|right].
        exists n'. refine (conj H1' (conj H2' (conj _ (conj H4' (conj H5' H6'))))). apply HM4; auto.
    - intros k nd Hk. destruct (Hinv _ _ Hk) as [[-> ->]|Ho].
      + exists e. rewrite Hentn. cbn [source value pred]. split; auto.
        destruct pr as [p|]; auto. destruct Hp as [Hp1 Hp2]. split; auto.
      + destruct (i_node _ _ _ _ _ I k nd Ho) as [e' [He' Hp']]. exists e'.
        rewrite (entNew_old g s ent k nd Ho). split; auto.
        destruct (pred nd) as [p|]; auto. destruct Hp' as [Hp1 Hp2]. split; auto.
    - intros k nd q Hk Hq. destruct (Hinv _ _ Hk) as [[-> ->]|Ho]; [destruct Hq|].
      destruct (i_nb _ _ _ _ _ I k nd q Ho Hq) as [qd [H1' [H2' H3']]].
      exists qd. rewrite (entNew_old g s ent k nd Ho), (entNew_old g s ent q qd H1').
      split; [apply nodeAt_old; auto|auto].
    - intros x y Hi. destruct HF as [->|[-> _]]; [|destruct Hi as [[= <- <-]|Hi]; [exact He|]];
        exact (i_F _ _ _ _ _ I x y Hi).
    - assert (Hold : forall x y, In (x, y) F -> target x -> exists p k,
        afind x M' = Some p /\ afind y M' = Some k /\
        linkedTo (mkESG (owner g ++ [mkNode d m pr []]) M') k p).
      { intros x y Hi Ht. destruct (i_link _ _ _ _ _ I x y Hi Ht) as [p [k [Hx [Hy [nd [Hnd Hl]]]]]].
        pose proof (edge_target _ _ (i_F _ _ _ _ _ I x y Hi)) as Hyt.
        exists p, k. split; [apply HM4; auto|]. split; [apply HM4; auto|].
        exists nd. split; [apply nodeAt_old; auto|].
        destruct Hl as [Hl|[Hl|[q [qd [H1' [H2' H3']]]]]]; auto.
        right; right. exists q, qd. split; auto. split; auto. apply nodeAt_old; auto. }
      intros x y Hi Ht. destruct HF as [->|[-> HF]]; [auto|]. destruct Hi as [[= <- <-]|Hi]; [|auto].
      destruct pr as [p|]; [|exfalso; eapply seed_not_target; eauto].
      destruct Hp as [_ Hp]. exists p, (length (owner g)). split; [apply HM4; auto|]. split; auto.
      exists (mkNode d m (Some p) []). split; auto.
    - assert (Hold : forall x y, In (x, y) F -> seed x -> exists k nd,
        afind y M' = Some k /\ nodeAt (mkESG (owner g ++ [mkNode d m pr []]) M') k = Some nd /\ pred nd = None).
      { intros x y Hi Hs. destruct (i_seed _ _ _ _ _ I x y Hi Hs) as [k [nd [Hy [Hnd Hl]]]].
        pose proof (edge_target _ _ (i_F _ _ _ _ _ I x y Hi)) as Hyt.
        exists k, nd. split; [apply HM4; auto|]. split; auto. apply nodeAt_old; auto. }
      intros x y Hi Hs. destruct HF as [->|[-> HF]]; [eauto|]. destruct Hi as [[= <- <-]|Hi]; [|eauto].
      destruct pr as [p|]; [destruct Hp as [Hp _]; exfalso; eapply seed_not_target; eauto|].
      exists (length (owner g)), (mkNode d m None []). auto.
  Qed.

  Lemma inv_same T F F' S0 g ent m e s d k :
    inv T F S0 g ent -> edge (m, e) (s, d) -> afind (s, d) (vertexMap g) = Some k ->
    (F' = F \/ F' = ((m, e), (s, d)) :: F /\
       (target (m, e) -> exists p, afind (m, e) (vertexMap g) = Some p /\ linkedTo g k p) /\
       (seed (m, e) -> exists nd, nodeAt g k = Some nd /\ pred nd = None)) ->
    inv ((s, d) :: T) F' S0 g ent.
  Proof.
    intros I He Hk HF. constructor.
    - intros x k' Hx. destruct (i_keys _ _ _ _ _ I x k' Hx); auto. left; right; auto.
    - intros x [<-|Hx]; [|exact (i_T _ _ _ _ _ I x Hx)]. split; [eapply edge_target; eauto|eauto].
    - exact (i_val _ _ _ _ _ I).
    - exact (i_node _ _ _ _ _ I).
    - exact (i_nb _ _ _ _ _ I).
    - intros x y Hi. destruct HF as [->|[-> _]]; [|destruct Hi as [[= <- <-]|Hi]; [exact He|]];
        exact (i_F _ _ _ _ _ I x y Hi).
    - intros x y Hi Ht. destruct HF as [->|[-> [HF _]]]; [|destruct Hi as [[= <- <-]|Hi]].
      + exact (i_link _ _ _ _ _ I x y Hi Ht).
      + destruct (HF Ht) as [p [Hp Hl]]. exists p, k. auto.
      + exact (i_link _ _ _ _ _ I x y Hi Ht).
    - intros x y Hi Ht. destruct HF as [->|[-> [_ HF]]]; [|destruct Hi as [[= <- <-]|Hi]].
      + exact (i_seed _ _ _ _ _ I x y Hi Ht).
      + destruct (HF Ht) as [nd [Hp Hl]]. exists k, nd. auto.
      + exact (i_seed _ _ _ _ _ I x y Hi Ht).
  Qed.

  Lemma inv_merge T F S0 g ent m e s d p nd :
    inv T F S0 g ent -> edge (m, e) (s, d) -> afind (s, d) (vertexMap g) = None ->
    target (m, e) -> afind (m, e) (vertexMap g) = Some p ->
    nodeAt g p = Some nd -> value nd = d -> blockOf (source nd) = blockOf s -> d <> zero ->
    inv ((s, d) :: T) (((m, e), (s, d)) :: F) S0 (setVertex g (s, d) p) ent.
  Proof.
    intros I He Hn Ht Hp Hnd Hv Hb Hz.
    destruct (i_val _ _ _ _ _ I _ _ Ht Hp) as [nd' [Hnd' [Hv' [Hh [Hc _]]]]].
    rewrite Hnd in Hnd'. injection Hnd' as <-. cbn [fst snd] in *. rewrite Hv in Hv'. subst e.
    assert (HM : forall x k, afind x (vertexMap g) = Some k -> afind x (aset (s, d) p (vertexMap g)) = Some k).
    { intros x k Hx. rewrite afind_aset_neq; auto. intros ->. congruence. }
    constructor; cbn [setVertex vertexMap].
    - intros x k Hx. rewrite afind_aset in Hx. destruct (eq_dec x (s, d)) as [->|Hne]; [left; left; auto|].
      destruct (i_keys _ _ _ _ _ I x k Hx); auto. left; right; auto.
    - intros x [<-|Hx].
      + split; [eapply edge_target; eauto|]. exists p. apply afind_aset_eq.
      + destruct (i_T _ _ _ _ _ I x Hx) as [Hx1 [k Hx2]]. eauto.
    - intros x k Htx Hx. rewrite afind_aset in Hx. destruct (eq_dec x (s, d)) as [->|Hne].
      + injection Hx as <-. exists nd. cbn [fst snd].
        refine (conj Hnd (conj Hv (conj _ (conj _ (or_intror _))))).
        * econstructor 2; eauto.
        * econstructor 2; eauto.
        * exists m. refine (conj He (conj Ht (conj (HM _ _ Hp) (conj Hz (conj (eq_sym Hb) _))))).
          intros y Hy. eapply (OO (source nd) d m s y); eauto.
      + destruct (i_val _ _ _ _ _ I x k Htx Hx) as [nd' [H1' [H2' [H3' [H4' H5']]]]].
        exists nd'. refine (conj H1' (conj H2' (conj H3' (conj H4' _)))).
        destruct H5' as [H5'|[n' [A1 [A2 [A3 A4]]]]]; [auto|right].
        exists n'. refine (conj A1 (conj A2 (conj (HM _ _ A3) A4))).
    - intros k nd' Hk. destruct (i_node _ _ _ _ _ I k nd' Hk) as [e' [He' Hp']]. exists e'. split; auto.
      destruct (pred nd') as [q|]; auto. destruct Hp' as [A1 A2]. split; auto.
    - exact (i_nb _ _ _ _ _ I).
    - intros x y [[= <- <-]|Hi]; [exact He|]. exact (i_F _ _ _ _ _ I x y Hi).
    - intros x y [[= <- <-]|Hi] Htx.
      + exists p, p. split; auto. split; [apply afind_aset_eq|]. exists nd. auto.
      + destruct (i_link _ _ _ _ _ I x y Hi Htx) as [p' [k [A1 [A2 A3]]]]. exists p', k. auto.
    - intros x y [[= <- <-]|Hi] Hs; [exfalso; eapply seed_not_target; eauto|].
      destruct (i_seed _ _ _ _ _ I x y Hi Hs) as [k [nd' [A1 [A2 A3]]]]. exists k, nd'. auto.
  Qed.

  (** An edge that is not recognised as already there enters a node at its entry. *)
  Lemma enters_entry T F S0 g ent m e s d k nd predId :
    inv T F S0 g ent -> edge (m, e) (s, d) -> afind (s, d) (vertexMap g) = Some k -> nodeAt g k = Some nd ->
    ((exists p, predId = Some p /\ target (m, e) /\ afind (m, e) (vertexMap g) = Some p) \/
     (predId = None /\ seed (m, e))) ->
    identityEdge blockOf zero g predId s d && eqb predId (Some k) = false ->
    s = ent k /\ value nd = d.
  Proof.
    intros I He Hk Hnd Hx Hi.
    destruct (i_val _ _ _ _ _ I (s, d) k (edge_target _ _ He) Hk) as [nd' [Hnd' [Hv [_ [_ Ho]]]]].
    rewrite Hnd in Hnd'. injection Hnd' as <-. cbn [fst snd] in *. split; auto.
    destruct Ho as [Ho|[n' [_ [A2 [A3 [A4 [A5 A6]]]]]]]; auto.
    exfalso. pose proof (A6 _ He) as Hm. injection Hm as -> ->.
    destruct Hx as [[p [-> [_ Hp]]]|[_ Hs]]; [|eapply seed_not_target; eauto].
    rewrite A3 in Hp. injection Hp as <-. rewrite eqb_refl, andb_true_r in Hi.
    cbn [identityEdge] in Hi. rewrite Hnd, Hv, eqb_refl, A5, eqb_refl in Hi. cbn [andb] in Hi.
    apply negb_false_iff, eqb_eq in Hi. auto.
  Qed.

  (** A node entered by a flow from a seed has no predecessor. *)
  Lemma seed_enters T F S0 g ent m e s d k nd :
    inv T F S0 g ent -> edge (m, e) (s, d) -> seed (m, e) -> nodeAt g k = Some nd ->
    s = ent k -> value nd = d -> pred nd = None.
  Proof.
    intros I He Hs Hnd -> <-.
    destruct (i_node _ _ _ _ _ I k nd Hnd) as [e' [He' Hp]]. destruct (pred nd) as [q|]; auto.
    exfalso. destruct Hp as [[y Hy] _]. pose proof (LS _ _ _ _ _ Hs He He') as Hm. rewrite Hm in Hy.
    eapply FR; eauto.
  Qed.

  Lemma inv_relink T F S0 g ent m e s d predId k nd :
    inv T F S0 g ent -> edge (m, e) (s, d) -> afind (s, d) (vertexMap g) = Some k -> nodeAt g k = Some nd ->
    pred nd = None ->
    ((exists p, predId = Some p /\ target (m, e) /\ afind (m, e) (vertexMap g) = Some p) \/
     (predId = None /\ seed (m, e))) ->
    identityEdge blockOf zero g predId s d && eqb predId (Some k) = false ->
    inv ((s, d) :: T) (((m, e), (s, d)) :: F) S0
      (mkESG (updAt (fun nd => mkNode (value nd) m predId (neighbors nd)) k (owner g)) (vertexMap g)) ent.
  Proof.
    intros I He Hk Hnd Hpn Hx Hi.
    destruct (enters_entry _ _ _ _ _ _ _ _ _ _ _ _ I He Hk Hnd Hx Hi) as [Hs Hv].
    set (g' := mkESG _ _).
    assert (Hat : forall k', nodeAt g' k' = if k' =? k
              then option_map (fun nd => mkNode (value nd) m predId (neighbors nd)) (nodeAt g k') else nodeAt g k').
    { intros k'. unfold g', nodeAt. cbn [owner]. apply nth_updAt. }
    assert (Hatk : nodeAt g' k = Some (mkNode (value nd) m predId (neighbors nd)))
      by (rewrite Hat, Nat.eqb_refl, Hnd; reflexivity).
    assert (Hold : forall k' nd', k' <> k -> nodeAt g k' = Some nd' -> nodeAt g' k' = Some nd').
    { intros k' nd' Hne Hk'. rewrite Hat. apply Nat.eqb_neq in Hne. rewrite Hne. auto. }
    (* which sources a merged node can get *)
    assert (Hsame : forall x, target x -> afind x (vertexMap g) = Some k -> fst x <> ent k -> m = source nd).
    { intros x Htx Hxk Hne. destruct (i_val _ _ _ _ _ I x k Htx Hxk) as [nd' [A1 [A2 [_ [_ A5]]]]].
      rewrite Hnd in A1. injection A1 as <-.
      destruct A5 as [A5|[n' [_ [_ [_ [Hz _]]]]]]; [contradiction|].
      destruct (i_node _ _ _ _ _ I k nd Hnd) as [e0 [He0 Hp0]]. rewrite Hpn in Hp0.
      destruct Hp0 as [Hsd|Hsk]; [|apply skip_zero in Hsk; cbn [snd] in Hsk; congruence].
      apply (LS _ _ m e _ Hsd He0). rewrite <- Hs, Hv. exact He. }
    constructor; cbn [vertexMap].
    - intros x k' Hxk. destruct (i_keys _ _ _ _ _ I x k' Hxk); auto. left; right; auto.
    - intros x [<-|Hxi]; [|exact (i_T _ _ _ _ _ I x Hxi)]. split; [eapply edge_target; eauto|eauto].
    - intros x k' Htx Hxk. destruct (i_val _ _ _ _ _ I x k' Htx Hxk) as [nd' [A1 [A2 [A3 [A4 A5]]]]].
      destruct (Nat.eq_dec k' k) as [->|Hne].
      + rewrite Hnd in A1. injection A1 as <-. eexists. split; [exact Hatk|]. cbn [value source].
        split; auto. destruct (eq_dec (fst x) (ent k)) as [Hf|Hf].
        * rewrite Hf. split; [|split; [|auto]].
          -- apply held_start with e. rewrite <- Hs, <- A2, Hv. exact He.
          -- rewrite <- Hf at 2. exact A4.
        * rewrite (Hsame x Htx Hxk Hf). split; auto.
      + exists nd'. split; [apply Hold; auto|]. auto.
    - intros k' nd' Hk'. destruct (Nat.eq_dec k' k) as [->|Hne].
      + rewrite Hatk in Hk'. injection Hk' as <-. exists e. cbn [source value pred].
        rewrite <- Hs, Hv. split; [exact He|].
        destruct Hx as [[p [-> [A1 A2]]]|[-> A1]]; auto.
      + rewrite Hat in Hk'. apply Nat.eqb_neq in Hne. rewrite Hne in Hk'.
        exact (i_node _ _ _ _ _ I k' nd' Hk').
    - intros k' nd' q Hk' Hq.
      assert (Hk'' : exists nd'', nodeAt g k' = Some nd'' /\ value nd'' = value nd' /\ neighbors nd'' = neighbors nd').
      { destruct (Nat.eq_dec k' k) as [->|Hne].
        - rewrite Hatk in Hk'. injection Hk' as <-. exists nd. auto.
        - rewrite Hat in Hk'. apply Nat.eqb_neq in Hne. rewrite Hne in Hk'. exists nd'. auto. }
      destruct Hk'' as [nd'' [B1 [B2 B3]]]. rewrite <- B3 in Hq.
      destruct (i_nb _ _ _ _ _ I k' nd'' q B1 Hq) as [qd [C1 [C2 C3]]]. rewrite <- B2.
      destruct (Nat.eq_dec q k) as [->|Hne].
      + eexists. split; [exact Hatk|]. rewrite Hnd in C1. injection C1 as <-. auto.
      + exists qd. auto.
    - intros x y [[= <- <-]|Hi']; [exact He|]. exact (i_F _ _ _ _ _ I x y Hi').
    - intros x y [[= <- <-]|Hi'] Htx.
      + destruct Hx as [[p [-> [A1 A2]]]|[_ A1]]; [|exfalso; eapply seed_not_target; eauto].
        exists p, k. split; auto. split; auto. eexists. split; [exact Hatk|]. cbn [pred]. auto.
      + destruct (i_link _ _ _ _ _ I x y Hi' Htx) as [p' [k' [A1 [A2 [nd' [A3 A4]]]]]].
        exists p', k'. split; auto. split; auto.
        assert (Hq' : forall q qd, nodeAt g q = Some qd -> pred qd = Some p' -> nodeAt g' q = Some qd).
        { intros q qd Hq Hpq. apply Hold; auto. intros ->. congruence. }
        destruct (Nat.eq_dec k' k) as [->|Hne].
        * rewrite Hnd in A3. injection A3 as <-. eexists. split; [exact Hatk|]. cbn [pred neighbors].
          destruct A4 as [A4|[A4|[q [qd [B1 [B2 B3]]]]]]; [auto|congruence|].
          right; right. exists q, qd. auto.
        * exists nd'. split; auto. destruct A4 as [A4|[A4|[q [qd [B1 [B2 B3]]]]]]; auto.
          right; right. exists q, qd. auto.
    - intros x y [[= <- <-]|Hi'] Hsd.
      + destruct Hx as [[p [_ [A1 _]]]|[-> _]]; [exfalso; eapply seed_not_target; eauto|].
        exists k. eexists. split; auto. split; [exact Hatk|]. reflexivity.
      + destruct (i_seed _ _ _ _ _ I x y Hi' Hsd) as [k' [nd' [A1 [A2 A3]]]].
        destruct (Nat.eq_dec k' k) as [->|Hne]; [|exists k', nd'; auto].
        exists k. eexists. split; auto. split; [exact Hatk|]. cbn [pred].
        pose proof (i_F _ _ _ _ _ I x y Hi') as Hxy.
        destruct (i_val _ _ _ _ _ I y k (edge_target _ _ Hxy) A1) as [nd'' [B1 [B2 [_ [_ B5]]]]].
        rewrite Hnd in B1. injection B1 as <-.
        destruct B5 as [B5|[n' [_ [B6 [_ [_ [_ B7]]]]]]].
        * destruct Hx as [[p [_ [[z Hz] _]]]|[-> _]]; auto. exfalso.
          destruct x as [xn xe]. assert (m = xn) as ->.
          { apply (LS xn xe m e y Hsd Hxy). destruct y as [yn yd]. cbn [fst snd] in *. subst yn yd.
            rewrite <- Hs, Hv. exact He. }
          exact (FR z xn e xe Hz Hsd).
        * exfalso. rewrite (B7 _ Hxy) in Hsd. eapply seed_not_target; eauto.
  Qed.

  Lemma inv_neighbor T F S0 g ent m e s d predId k nd q M' :
    inv T F S0 g ent -> edge (m, e) (s, d) -> afind (s, d) (vertexMap g) = Some k -> nodeAt g k = Some nd ->
    pred nd = Some q ->
    ((exists p, predId = Some p /\ target (m, e) /\ afind (m, e) (vertexMap g) = Some p) \/
     (predId = None /\ seed (m, e))) ->
    identityEdge blockOf zero g predId s d && eqb predId (Some k) = false ->
    (predId <> None -> M' = vertexMap g) ->
    inv ((s, d) :: T) (((m, e), (s, d)) :: F) S0
      (mkESG (updAt (fun nd => mkNode (value nd) (source nd) (pred nd) (neighbors nd ++ [length (owner g)])) k
                (owner g ++ [mkNode d m predId []])) M') (entNew g s ent).
  Proof.
    intros I He Hk Hnd Hpn Hx Hi HM.
    destruct (enters_entry _ _ _ _ _ _ _ _ _ _ _ _ I He Hk Hnd Hx Hi) as [Hs Hv].
    destruct Hx as [[p [-> [Htm Hp]]]|[_ Hsd]];
      [|rewrite (seed_enters _ _ _ _ _ _ _ _ _ _ _ I He Hsd Hnd Hs Hv) in Hpn; discriminate].
    rewrite HM by discriminate. clear HM.
    set (len := length (owner g)) in *.
    set (g' := mkESG _ _).
    pose proof (nodeAt_lt _ _ _ Hnd) as Hlt. fold len in Hlt.
    assert (Hentn : entNew g s ent len = s) by (unfold entNew; fold len; rewrite Nat.eqb_refl; reflexivity).
    assert (Hnew : nodeAt g' len = Some (mkNode d m (Some p) [])).
    { unfold g', nodeAt. cbn [owner]. rewrite nth_updAt.
      destruct (len =? k) eqn:E; [apply Nat.eqb_eq in E; lia|].
      rewrite nth_error_app2; fold len; [rewrite Nat.sub_diag; reflexivity|lia]. }
    assert (Hatk : nodeAt g' k = Some (mkNode (value nd) (source nd) (pred nd) (neighbors nd ++ [len]))).
    { unfold g', nodeAt. cbn [owner]. rewrite nth_updAt, Nat.eqb_refl.
      rewrite nth_error_app1; [|exact Hlt]. unfold nodeAt in Hnd. rewrite Hnd. reflexivity. }
    assert (Hold : forall k' nd', k' <> k -> nodeAt g k' = Some nd' -> nodeAt g' k' = Some nd').
    { intros k' nd' Hne Hk'. unfold g', nodeAt. cbn [owner]. rewrite nth_updAt.
      apply Nat.eqb_neq in Hne. rewrite Hne. rewrite nth_error_app1; [exact Hk'|].
      eapply nodeAt_lt; eauto. }
    assert (Hany : forall k' nd', nodeAt g k' = Some nd' -> exists nd'', nodeAt g' k' = Some nd'' /\
              value nd'' = value nd' /\ source nd'' = source nd' /\ pred nd'' = pred nd' /\
              incl (neighbors nd') (neighbors nd'')).
    { intros k' nd' Hk'. destruct (Nat.eq_dec k' k) as [->|Hne].
      - rewrite Hnd in Hk'. injection Hk' as <-. eexists. split; [exact Hatk|]. cbn.
        repeat split; auto. apply incl_appl, incl_refl.
      - exists nd'. split; auto. repeat split; auto. apply incl_refl. }
    assert (Hinv : forall k' nd', nodeAt g' k' = Some nd' ->
              (k' = len /\ nd' = mkNode d m (Some p) []) \/
              exists nd'', nodeAt g k' = Some nd'' /\ value nd' = value nd'' /\ source nd' = source nd'' /\
                pred nd' = pred nd'' /\
                (neighbors nd' = neighbors nd'' \/ k' = k /\ neighbors nd' = neighbors nd'' ++ [len])).
    { intros k' nd' Hk'. destruct (Nat.eq_dec k' len) as [->|Hl].
      - rewrite Hnew in Hk'. injection Hk' as <-. auto.
      - right. destruct (Nat.eq_dec k' k) as [->|Hne].
        + rewrite Hatk in Hk'. injection Hk' as <-. exists nd. cbn. auto 10.
        + exists nd'. split; [|auto 10]. unfold g', nodeAt in Hk'. cbn [owner] in Hk'. rewrite nth_updAt in Hk'.
          apply Nat.eqb_neq in Hne. rewrite Hne in Hk'.
          assert (k' < len).
          { apply Nat.eqb_neq in Hne. assert (k' < length (owner g ++ [mkNode d m (Some p) []])) as Hb
              by (apply nth_error_Some; congruence).
            rewrite app_length in Hb. cbn in Hb. fold len in Hb. lia. }
          rewrite nth_error_app1 in Hk'; auto. }
    constructor; cbn [vertexMap].
    - intros x k' Hxk. destruct (i_keys _ _ _ _ _ I x k' Hxk); auto. left; right; auto.
    - intros x [<-|Hxi]; [|exact (i_T _ _ _ _ _ I x Hxi)]. split; [eapply edge_target; eauto|eauto].
    - intros x k' Htx Hxk. destruct (i_val _ _ _ _ _ I x k' Htx Hxk) as [nd' [A1 [A2 [A3 [A4 A5]]]]].
      destruct (Hany _ _ A1) as [nd'' [B1 [B2 [B3 _]]]]. exists nd''.
      rewrite (entNew_old g s ent k' nd' A1), B2, B3. auto.
    - intros k' nd' Hk'. destruct (Hinv _ _ Hk') as [[-> ->]|[nd'' [B1 [B2 [B3 [B4 _]]]]]].
      + exists e. rewrite Hentn. cbn [source value pred]. auto.
      + rewrite (entNew_old g s ent k' nd'' B1), B2, B3, B4. exact (i_node _ _ _ _ _ I k' nd'' B1).
    - intros k' nd' q' Hk' Hq'. destruct (Hinv _ _ Hk') as [[-> ->]|[nd'' [B1 [B2 [_ [_ B5]]]]]]; [destruct Hq'|].
      assert (Hc : In q' (neighbors nd'') \/ k' = k /\ q' = len).
      { destruct B5 as [B5|[-> B5]]; rewrite B5 in Hq'; auto.
        apply in_app_iff in Hq'. destruct Hq' as [Hq'|[<-|[]]]; auto. }
      destruct Hc as [Hc|[-> ->]].
      + destruct (i_nb _ _ _ _ _ I k' nd'' q' B1 Hc) as [qd [C1 [C2 C3]]].
        destruct (Hany _ _ C1) as [qd' [D1 [D2 _]]]. exists qd'.
        rewrite (entNew_old g s ent k' nd'' B1), (entNew_old g s ent q' qd C1), D2, B2. auto.
      + rewrite Hnd in B1. injection B1 as <-. eexists. split; [exact Hnew|]. cbn [value].
        rewrite (entNew_old g s ent k nd Hnd), Hentn. split; [congruence|exact Hs].
    - intros x y [[= <- <-]|Hi']; [exact He|]. exact (i_F _ _ _ _ _ I x y Hi').
    - intros x y [[= <- <-]|Hi'] Htx.
      + exists p, k. split; auto. split; auto. eexists. split; [exact Hatk|]. cbn [pred neighbors].
        right; right. exists len. eexists. split; [apply in_app_iff; right; left; auto|].
        split; [exact Hnew|]. reflexivity.
      + destruct (i_link _ _ _ _ _ I x y Hi' Htx) as [p' [k' [A1 [A2 [nd' [A3 A4]]]]]].
        exists p', k'. split; auto. split; auto.
        destruct (Hany _ _ A3) as [nd'' [B1 [_ [_ [B4 B5]]]]]. exists nd''. split; auto.
        destruct A4 as [A4|[A4|[q' [qd [C1 [C2 C3]]]]]]; [auto|rewrite B4; auto|].
        right; right. destruct (Hany _ _ C2) as [qd' [D1 [_ [_ [D4 _]]]]]. exists q', qd'.
        rewrite D4. auto.
    - intros x y [[= <- <-]|Hi'] Hsd; [exfalso; eapply seed_not_target; eauto|].
      destruct (i_seed _ _ _ _ _ I x y Hi' Hsd) as [k' [nd' [A1 [A2 A3]]]].
      destruct (Hany _ _ A2) as [nd'' [B1 [_ [_ [B4 _]]]]]. exists k', nd''. rewrite B4. auto.
  Qed.

  Lemma inv_step T F S0 g ent predId m e s d b g' :
    inv T F S0 g ent -> edge (m, e) (s, d) -> (b = true -> skipEdge (m, e) (s, d)) ->
    ((exists p, predId = Some p /\ target (m, e) /\ afind (m, e) (vertexMap g) = Some p) \/
     (predId = None /\ seed (m, e) /\ In (m, e) S0)) ->
    saved g predId m e s d b g' ->
    exists ent', inv ((s, d) :: T) (if b then F else ((m, e), (s, d)) :: F) S0 g' ent' /\
      (target (m, e) -> forall p, afind (m, e) (vertexMap g) = Some p -> afind (m, e) (vertexMap g') = Some p).
  Proof.
    intros I He Hb Hx Hsv.
    assert (Hx' : (exists p, predId = Some p /\ target (m, e) /\ afind (m, e) (vertexMap g) = Some p) \/
                  (predId = None /\ seed (m, e))) by (destruct Hx as [?|[? [? ?]]]; auto).
    destruct Hsv as [p Hp Hn|p k Hp Hk|p nd Hp Hn Hnd Hv Hbl Hz|Hn|k Hk Hp|k nd Hk Hnd Hpn Hi
                    |k nd q Hk Hnd Hpn Hd Hi|k nd q Hk Hnd Hpn Hi]; unfold getNodeOrNull in *.
    - exists (entNew g s ent). split.
      + apply inv_new with (F := F) (e := e); auto.
        * apply afind_aset_eq.
        * intros x Ht Hne. apply afind_aset_neq; auto.
        * intros x k Hxk. rewrite afind_aset in Hxk. destruct (eq_dec x (s, d)); auto.
      + cbn [vertexMap]. intros Ht q Hq. rewrite afind_aset_neq; auto. intros E. congruence.
    - exists ent. split; [|auto]. eapply inv_same; eauto.
    - destruct Hx as [[p' [Hp' [Ht Hf]]]|[Hp' _]]; [|congruence].
      assert (p' = p) as -> by congruence.
      exists ent. split; [eapply inv_merge; eauto|]. cbn [setVertex vertexMap]. intros _ q Hq.
      rewrite afind_aset_neq; auto. intros E. congruence.
    - exists (entNew g s ent). destruct Hx as [[p [-> [Ht Hf]]]|[-> [Hs Hin]]].
      + split.
        * apply inv_new with (F := F) (e := e); auto.
          -- apply afind_aset_eq.
          -- intros x _ Hne. apply afind_aset_neq; auto.
          -- intros x k Hxk. rewrite afind_aset in Hxk. destruct (eq_dec x (s, d)); auto.
          -- right. split; auto. discriminate.
        * cbn [vertexMap]. intros _ q Hq. rewrite afind_aset_neq; auto. intros E. congruence.
      + split.
        * apply inv_new with (F := F) (e := e); auto.
          -- apply afind_aset_eq.
          -- intros x Htx Hne. rewrite afind_aset_neq; auto. apply afind_aset_neq.
             intros ->. eapply seed_not_target; eauto.
          -- intros x k Hxk. rewrite afind_aset in Hxk. destruct (eq_dec x (s, d)); auto.
             rewrite afind_aset in Hxk. destruct (eq_dec x (m, e)) as [->|]; auto.
        * intros Ht. exfalso. eapply seed_not_target; eauto.
    - exists ent. split; [|auto]. eapply inv_same; eauto. right. split; auto.
      destruct Hx as [[p [Hp' [Ht Hf]]]|[Hp' _]]; [|congruence].
      assert (p = k) as -> by congruence. split.
      + intros _. exists k. split; auto.
        destruct (i_val _ _ _ _ _ I _ _ (edge_target _ _ He) Hk) as [nd [Hnd _]]. exists nd. auto.
      + intros Hs. exfalso. eapply seed_not_target; eauto.
    - exists ent. split; [eapply inv_relink; eauto|auto].
    - exists ent. split; [|auto].
      destruct (enters_entry _ _ _ _ _ _ _ _ _ _ _ _ I He Hk Hnd Hx' Hi) as [Hs Hv].
      eapply inv_same; eauto. right. split; auto. split.
      + intros Ht. destruct Hx as [[p [-> [_ Hf]]]|[_ [Hsd _]]]; [|exfalso; eapply seed_not_target; eauto].
        exists p. split; auto. exists nd. split; auto. destruct Hd as [Hd|[nb [Hd1 Hd2]]].
        * right; left. congruence.
        * right; right. unfold predOf in Hd2. destruct (nodeAt g nb) as [qd|] eqn:Enb; [|discriminate].
          exists nb, qd. auto.
      + intros Hsd. rewrite (seed_enters _ _ _ _ _ _ _ _ _ _ _ I He Hsd Hnd Hs Hv) in Hpn. discriminate.
    - exists (entNew g s ent). split.
      + eapply inv_neighbor; eauto. destruct predId; [auto|congruence].
      + cbn [vertexMap]. intros Ht p Hp. destruct predId; auto.
        rewrite (afind_aset_neq (m, e)) ; auto.
        destruct Hx as [[p' [? _]]|[_ [Hsd _]]]; [discriminate|]. exfalso. eapply seed_not_target; eauto.
  Qed.

  Lemma inv_empty n0 : inv [] [] [] emptyESG (fun _ => n0).
  Proof.
    constructor; cbn; try contradiction; try discriminate; intros k nd; unfold nodeAt; destruct k; discriminate.
  Qed.
  Lemma inv_src T F S0 g ent x : inv T F S0 g ent -> inv T F (x :: S0) g ent.
  Proof.
    intros I. constructor; try apply I.
    intros y k Hy. destruct (i_keys _ _ _ _ _ I y k Hy); auto. right; right; auto.
  Qed.

  Lemma inv_all c ds : In c L -> incl ds (succFacts c) -> forall T F S0 g ent predId g',
    inv T F S0 g ent ->
    ((exists p, predId = Some p /\ target (src c) /\ afind (src c) (vertexMap g) = Some p) \/
     (predId = None /\ seed (src c) /\ In (src c) S0)) ->
    saveAll blockOf zero g predId (curr c) (currFact c) (succ c) ds
      (eqb (kind c) CallToRet && eqb (currFact c) zero) = Some g' ->
    exists T' F' ent', inv T' F' S0 g' ent' /\ incl T T' /\ incl F F' /\
      (forall d, In d ds -> In (succ c, d) T') /\
      (forall d, In d ds -> ~ skips zero c d -> In (src c, (succ c, d)) F').
  Proof.
    intros Hc. induction ds as [|d ds IH]; intros Hi T F S0 g ent predId g' I Hx Hsv.
    - injection Hsv as <-. exists T, F, ent. split; auto. split; [apply incl_refl|]. split; [apply incl_refl|].
      split; intros ? [].
    - cbn [saveAll] in Hsv.
      destruct (saveEdge _ _ _ _ _ _ _ _ _) as [g1|] eqn:E1; [|discriminate].
      apply saveEdge_saved in E1.
      assert (He : edge (curr c, currFact c) (succ c, d)).
      { exists c. split; auto. split; auto. split; auto. apply Hi. left; auto. }
      set (b := eqb (kind c) CallToRet && eqb (currFact c) zero && eqb d (currFact c)) in *.
      assert (Hb : b = true <-> skips zero c d).
      { unfold b, skips. rewrite !andb_true_iff, !eqb_true. split; intros; intuition congruence. }
      destruct (inv_step T F S0 g ent predId _ _ _ _ b g1 I He) with (2 := Hx) (3 := E1) as [ent1 [I1 Hst]].
      { intros Hbt. apply Hb in Hbt. exists c. split; auto. split; auto. split; auto. split; auto.
        apply Hi. left; auto. }
      destruct (IH (fun z Hz => Hi z (or_intror Hz)) _ _ _ _ _ predId g' I1) as [T' [F' [ent' [I' [HT [HF [HdT HdF]]]]]]]; auto.
      { destruct Hx as [[p [Hp [Ht Hf]]]|Hx]; auto. left. exists p. auto. }
      exists T', F', ent'. split; auto. split; [intros z Hz; apply HT; right; auto|]. split.
      { intros z Hz. apply HF. destruct b; auto. right; auto. }
      split.
      + intros d' [<-|Hd']; [apply HT; left; auto|auto].
      + intros d' [<-|Hd'] Hns; auto. apply HF. destruct b; [exfalso; apply Hns, Hb; auto|left; auto].
  Qed.

  Hypothesis ORD : ordered L.

  Lemma inv_build Q : forall P T F g ent g', L = P ++ Q ->
    inv T F (map src P) g ent ->
    (forall c d, In c P -> In d (succFacts c) -> In (succ c, d) T) ->
    (forall c d, In c P -> In d (succFacts c) -> ~ skips zero c d -> In (src c, (succ c, d)) F) ->
    build blockOf zero g Q = Some g' ->
    exists T' F' S' ent', inv T' F' S' g' ent' /\
      (forall c d, In c L -> In d (succFacts c) -> In (succ c, d) T') /\
      (forall c d, In c L -> In d (succFacts c) -> ~ skips zero c d -> In (src c, (succ c, d)) F').
  Proof.
    induction Q as [|c Q IH]; intros P T F g ent g' HL I HT HF Hb.
    - injection Hb as <-. rewrite app_nil_r in HL. rewrite <- HL in *. exists T, F, (map src L), ent. auto.
    - cbn [build] in Hb. destruct (saveEdges blockOf zero g c) as [g1|] eqn:E1; [|discriminate].
      assert (Hc : In c L) by (rewrite HL; apply in_app_iff; right; left; auto).
      unfold saveEdges in E1. unfold getNodeOrNull in E1. fold (src c) in E1.
      assert (Hx : (exists p, afind (src c) (vertexMap g) = Some p /\ target (src c) /\ afind (src c) (vertexMap g) = Some p) \/
               (afind (src c) (vertexMap g) = None /\ seed (src c) /\ In (src c) (src c :: map src P))).
      { destruct (ORD P c Q HL) as [[c' [Hc' [Hs' Hd']]]|[Hnt Hne]].
        - left. pose proof (HT c' _ Hc' Hd') as Hin. rewrite Hs' in Hin. fold (src c) in Hin.
          destruct (i_T _ _ _ _ _ I _ Hin) as [Ht [p Hp]]. eauto.
        - right. split; [|split; [|left; auto]].
          + destruct (afind (src c) (vertexMap g)) as [k|] eqn:Ek; auto. exfalso.
            destruct (i_keys _ _ _ _ _ I _ _ Ek) as [Hin|Hin].
            * apply Hnt. apply (i_T _ _ _ _ _ I _ Hin).
            * apply in_map_iff in Hin. destruct Hin as [c' [Hs' Hc']]. apply (Hne c'); auto.
              apply in_app_iff; auto.
          + split; eauto. }
      destruct (inv_all c (succFacts c) Hc (incl_refl _) T F (src c :: map src P) g ent _ g1
                  (inv_src _ _ _ _ _ _ I) Hx E1) as [T1 [F1 [ent1 [I1 [HT1 [HF1 [HdT HdF]]]]]]].
      assert (I1' : inv T1 F1 (map src (P ++ [c])) g1 ent1).
      { constructor; try apply I1. intros x k Hxk. destruct (i_keys _ _ _ _ _ I1 x k Hxk) as [?|Hin]; auto.
        right. rewrite map_app. apply in_app_iff. destruct Hin as [<-|Hin]; auto. right; left; auto. }
      apply (IH (P ++ [c]) T1 F1 g1 ent1 g'); auto.
      + rewrite <- app_assoc. exact HL.
      + intros c' d Hin Hd. apply in_app_iff in Hin. destruct Hin as [Hin|[<-|[]]]; auto.
      + intros c' d Hin Hd Hns. apply in_app_iff in Hin. destruct Hin as [Hin|[<-|[]]]; auto.
  Qed.

  Variable g : esg N D.
  Hypothesis BUILD : build blockOf zero emptyESG L = Some g.

  Lemma built_inv : (L = [] /\ g = emptyESG) \/
    exists T F S0 ent, inv T F S0 g ent /\
      (forall x y, edge x y -> In y T) /\ (forall x y, flow x y -> In (x, y) F).
  Proof.
    destruct L as [|c0 L'] eqn:EL.
    - left. cbn in BUILD. injection BUILD as <-. auto.
    - right. rewrite <- EL in *.
      destruct (inv_build L [] [] [] emptyESG (fun _ => curr c0) g eq_refl (inv_empty _)) as
        [T [F [S0 [ent [I [HT HF]]]]]]; auto; try (intros ? ? []).
      exists T, F, S0, ent. split; auto. split.
      + intros x y [c [Hc [Hs [Hy Hd]]]]. specialize (HT c (snd y) Hc Hd). rewrite Hy in HT. destruct y; auto.
      + intros x y [c [Hc [Hs [Hy [Hd Hn]]]]]. specialize (HF c (snd y) Hc Hd Hn).
        rewrite Hy, Hs in HF. destruct y; auto.
  Qed.

  Lemma no_edge_nil x y : ExplodedSuperGraphSpec.edge (@nil (call N D)) x y -> False.
  Proof. intros [c [[] _]]. Qed.

  (** ** The results *)
  Lemma reached_have_nodes x : target x ->
    exists k nd, getNodeOrNull g (fst x) (snd x) = Some k /\ nodeAt g k = Some nd /\ value nd = snd x.
  Proof.
    intros Ht. destruct built_inv as [[E _]|[T [F [S0 [ent [I [HT _]]]]]]].
    - destruct Ht as [y Hy]. rewrite E in Hy. destruct (no_edge_nil _ _ Hy).
    - pose proof Ht as [y Hy]. destruct (i_T _ _ _ _ _ I x (HT _ _ Hy)) as [_ [k Hk]].
      destruct (i_val _ _ _ _ _ I x k Ht Hk) as [nd [A1 [A2 _]]].
      exists k, nd. split; auto. unfold getNodeOrNull. destruct x; auto.
  Qed.

  Lemma flows_are_linked x y : target x -> flow x y -> exists p k,
    getNodeOrNull g (fst x) (snd x) = Some p /\ getNodeOrNull g (fst y) (snd y) = Some k /\ linkedTo g k p.
  Proof.
    intros Ht Hf. destruct built_inv as [[E _]|[T [F [S0 [ent [I [_ HF]]]]]]].
    - destruct Ht as [z Hz]. rewrite E in Hz. destruct (no_edge_nil _ _ Hz).
    - destruct (i_link _ _ _ _ _ I x y (HF _ _ Hf) Ht) as [p [k [A1 [A2 A3]]]]. exists p, k.
      destruct x, y; auto.
  Qed.

  Lemma trace_follows T F S0 ent (I : inv T F S0 g ent) k l : trace g k l -> forall nd, nodeAt g k = Some nd ->
    exists y, follows (ent k, value nd) l y /\ (seed y \/ exists s, skipEdge y (s, zero)).
  Proof.
    induction 1 as [k nd Hk Hp|k nd p l Hk Hp Ht IH|k nd p pd q l Hk Hp Hpd Hq Ht IH];
      intros nd0 Hk0; rewrite Hk in Hk0; injection Hk0 as <-;
      destruct (i_node _ _ _ _ _ I k nd Hk) as [e [He Hpr]]; rewrite Hp in Hpr.
    - exists (source nd, e). split; [econstructor 2; eauto; constructor|].
      destruct Hpr as [Hs|Hs]; auto. right. exists (ent k). pose proof (skip_zero _ _ Hs) as Hz. cbn [snd] in Hz. rewrite Hz in Hs. exact Hs.
    - destruct Hpr as [Hte Hf]. destruct (i_val _ _ _ _ _ I _ _ Hte Hf) as [pd [A1 [A2 [_ [A4 _]]]]].
      cbn [fst snd] in *. destruct (IH pd A1) as [y [Hy1 Hy2]]. exists y. split; auto.
      econstructor 2; eauto. eapply carried_follows; eauto. rewrite <- A2. exact Hy1.
    - destruct Hpr as [Hte Hf]. destruct (i_val _ _ _ _ _ I _ _ Hte Hf) as [pd' [A1 [A2 [_ [A4 _]]]]].
      rewrite Hpd in A1. injection A1 as <-. cbn [fst snd] in *.
      destruct (i_nb _ _ _ _ _ I p pd q Hpd Hq) as [qd [B1 [B2 B3]]].
      destruct (IH qd B1) as [y [Hy1 Hy2]]. exists y. split; auto.
      econstructor 2; eauto. eapply carried_follows; eauto. rewrite <- A2, <- B2, <- B3. exact Hy1.
  Qed.

  Lemma traces_follow x k l : target x -> getNodeOrNull g (fst x) (snd x) = Some k -> traceOf g k l ->
    exists y, follows x l y /\ (seed y \/ exists s, skipEdge y (s, zero)).
  Proof.
    intros Ht Hk Htr. destruct built_inv as [[E _]|[T [F [S0 [ent [I _]]]]]].
    - destruct Ht as [z Hz]. rewrite E in Hz. destruct (no_edge_nil _ _ Hz).
    - assert (Hk' : afind x (vertexMap g) = Some k) by (destruct x; exact Hk).
      destruct (i_val _ _ _ _ _ I x k Ht Hk') as [nd [A1 [A2 [_ [A4 _]]]]].
      assert (Hgo : exists y, follows (ent k, value nd) l y /\ (seed y \/ exists s, skipEdge y (s, zero))).
      { destruct Htr as [Htr|[nd' [q [Hnd' [Hq Htr]]]]].
        - eapply trace_follows; eauto.
        - rewrite A1 in Hnd'. injection Hnd' as <-.
          destruct (i_nb _ _ _ _ _ I k nd q A1 Hq) as [qd [B1 [B2 B3]]].
          rewrite <- B2, <- B3. eapply trace_follows; eauto. }
      destruct Hgo as [y [Hy1 Hy2]]. exists y. split; auto. destruct x as [n d]. cbn [fst snd] in *.
      eapply carried_follows; eauto. rewrite <- A2. exact Hy1.
  Qed.

  Lemma nodes_settle : (forall x, target x -> reached zero L x) ->
    forall k nd, nodeAt g k = Some nd -> settles g k.
  Proof.
    intros HR k nd Hk. destruct built_inv as [[_ E]|[T [F [S0 [ent [I [_ HF]]]]]]].
    - rewrite E in Hk. unfold nodeAt in Hk. destruct k; discriminate.
    - assert (Hx : forall x, reached zero L x -> forall k, afind x (vertexMap g) = Some k ->
                exists nd, nodeAt g k = Some nd /\ (neighbors nd <> [] \/ settles g k)).
      { induction 1 as [x y Hs Hf|x y Hr IH Hf]; intros k' Hk'.
        - destruct (i_seed _ _ _ _ _ I x y (HF _ _ Hf) Hs) as [k0 [nd0 [A1 [A2 A3]]]].
          assert (k0 = k') as -> by congruence. exists nd0. split; auto. right. econstructor 1; eauto.
        - assert (Htx : target x).
          { destruct Hr as [z x' _ Hf'|z x' _ Hf']; destruct Hf' as [c [B1 [B2 [B3 [B4 _]]]]];
              exists z, c; auto. }
          destruct (i_link _ _ _ _ _ I x y (HF _ _ Hf) Htx) as [p [k0 [A1 [A2 [nd0 [A3 A4]]]]]].
          assert (k0 = k') as -> by congruence. exists nd0. split; auto.
          destruct (IH p A1) as [pd [B1 B2]].
          destruct A4 as [->|[A4|[q [qd [C1 _]]]]].
          + rewrite A3 in B1. injection B1 as <-. exact B2.
          + right. destruct B2 as [B2|B2]; [econstructor 2; eauto|econstructor 3; eauto].
          + left. intros E. rewrite E in C1. destruct C1. }
      destruct (i_node _ _ _ _ _ I k nd Hk) as [e [_ Hp]]. destruct (pred nd) as [p|] eqn:Ep.
      + destruct Hp as [Ht Hf]. destruct (Hx _ (HR _ Ht) p Hf) as [pd [A1 [A2|A2]]];
          [econstructor 2; eauto|econstructor 3; eauto].
      + econstructor 1; eauto.
  Qed.
End Proofs.

(** Entries of the vertex map are never removed. *)
Section Keys.
  Context {N D B : Type} `{EqDec N} `{EqDec D} `{EqDec B}.
  Variable blockOf : N -> B.
  Variable zero : D.

  Lemma saved_keys (g : esg N D) predId m e s d b g' : saved blockOf zero g predId m e s d b g' ->
    In (s, d) (akeys (vertexMap g')) /\ incl (akeys (vertexMap g)) (akeys (vertexMap g')).
  Proof.
    destruct 1 as [p Hp Hn|p k Hp Hk|p nd Hp Hn Hnd Hv Hbl Hz|Hn|k Hk Hp|k nd Hk Hnd Hpn Hi
                    |k nd q Hk Hnd Hpn Hd Hi|k nd q Hk Hnd Hpn Hi]; unfold getNodeOrNull in *;
      cbn [vertexMap setVertex];
      try (destruct predId);
      (split; [try (rewrite In_akeys_aset; auto); eauto using afind_Some_key
              |intros z Hz'; rewrite ?In_akeys_aset; auto]).
    all: try right; eapply (afind_Some_key (s, d)); eassumption.
  Qed.
  Lemma saveAll_keys ds : forall (g : esg N D) predId m e s sk g',
    saveAll blockOf zero g predId m e s ds sk = Some g' ->
    (forall d, In d ds -> In (s, d) (akeys (vertexMap g'))) /\ incl (akeys (vertexMap g)) (akeys (vertexMap g')).
  Proof.
    induction ds as [|d ds IH]; cbn [saveAll]; intros g predId m e s sk g' E.
    - injection E as <-. split; [intros ? []|apply incl_refl].
    - destruct (saveEdge _ _ _ _ _ _ _ _ _) as [g1|] eqn:E1; [|discriminate].
      apply saveEdge_saved, saved_keys in E1. destruct E1 as [A1 A2].
      destruct (IH _ _ _ _ _ _ _ E) as [B1 B2]. split.
      + intros d' [<-|Hd]; auto.
      + intros z Hz. auto.
  Qed.
  Lemma build_keys L : forall (g g' : esg N D), build blockOf zero g L = Some g' ->
    (forall c d, In c L -> In d (succFacts c) -> In (succ c, d) (akeys (vertexMap g'))) /\
    incl (akeys (vertexMap g)) (akeys (vertexMap g')).
  Proof.
    induction L as [|c L IH]; cbn [build]; intros g g' E.
    - injection E as <-. split; [intros ? ? []|apply incl_refl].
    - destruct (saveEdges _ _ g c) as [g1|] eqn:E1; [|discriminate].
      apply saveAll_keys in E1. destruct E1 as [A1 A2]. destruct (IH _ _ E) as [B1 B2]. split.
      + intros c' d [<-|Hc] Hd; auto.
      + intros z Hz. auto.
  Qed.
End Keys.
