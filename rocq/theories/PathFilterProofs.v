(** Proofs about filterOutUnreachableNodes of PathFilterModel. *)
From Coq Require Import List Bool Arith Lia Relations Permutation.
From Verif Require Import Assoc DFAMinimizerModel DFAMinimizerSpec DFAMinimizerProofs PathDagModel PathDagSpec PathDagGraphs
  PathDagReverse PathFilterModel PathFilterSpec.
Import ListNotations.

(** ** removeAt *)
Lemma setAt_mid {A} (a b : A) p q : setAt (length p) b (p ++ a :: q) = p ++ b :: q.
Proof. induction p as [|x p IH]; cbn; auto. f_equal; auto. Qed.
Lemma removeAt_spec {A} (l : list A) i x : nth_error l i = Some x ->
  firstn i (removeAt i l) = firstn i l /\ Permutation (skipn i l) (x :: skipn i (removeAt i l)) /\
  length l = S (length (removeAt i l)).
Proof.
  intros E. destruct (nth_error_split l i E) as [p [q [-> Lp]]]. subst i.
  assert (R : removeAt (length p) (p ++ x :: q) = p ++ match q with [] => [] | _ => last q x :: removelast q end).
  { unfold removeAt. destruct (p ++ x :: q) as [|d l'] eqn:El; [destruct p; discriminate|]. rewrite <- El. clear.
    rewrite setAt_mid. destruct q as [|y q].
    - rewrite last_last, app_nil_r. apply removelast_last.
    - assert (Ll : last (p ++ x :: y :: q) d = last (y :: q) x).
      { destruct (@exists_last _ (y :: q)) as [q' [z ->]]; [discriminate|].
        replace (p ++ x :: q' ++ [z]) with ((p ++ x :: q') ++ [z]) by (rewrite <- app_assoc; reflexivity).
        rewrite !last_last. reflexivity. }
      rewrite Ll. rewrite removelast_app by discriminate. f_equal. }
  rewrite R. clear R.
  rewrite !firstn_app, !firstn_all, !Nat.sub_diag, !skipn_app, !skipn_all, !Nat.sub_diag. cbn [firstn skipn app].
  rewrite !app_nil_r. split; auto. destruct q as [|y q].
  - rewrite !app_length. cbn. split; [auto|lia].
  - assert (Pq : Permutation (y :: q) (last (y :: q) x :: removelast (y :: q)) /\ length (y :: q) = S (length (removelast (y :: q)))).
    { destruct (@exists_last _ (y :: q)) as [q' [z ->]]; [discriminate|]. rewrite last_last, removelast_last, app_length. cbn. split; [|lia].
      apply Permutation_sym, Permutation_cons_append. }
    destruct Pq as [Pq Lq]. split; [apply perm_skip; auto|].
    rewrite !app_length. cbn [length] in *. lia.
Qed.
Lemma removeAt_In {A} (l : list A) i x z : nth_error l i = Some x -> In z l <-> z = x \/ In z (removeAt i l).
Proof.
  intros E. destruct (removeAt_spec l i x E) as [F1 [F2 _]]. rewrite <- (firstn_skipn i l) at 1.
  rewrite <- (firstn_skipn i (removeAt i l)), !in_app_iff, F1. split.
  - intros [X|X]; auto. apply (Permutation_in _ F2) in X. destruct X as [<-|]; auto.
  - intros [->|[X|X]]; auto; right; apply (Permutation_in _ (Permutation_sym F2)); [left|right]; auto.
Qed.

Section F.
  Context {N A V E : Type} `{EqDec N} `{EqDec V}.
  Variable sat : E -> A -> Prop.
  Variable ec : N -> N -> option (A * list V).
  Variable unsat : list (form A) -> bool.
  Variable add : option (form A).
  Notation holds := (holds sat).
  Notation taken := (taken sat ec).
  Notation admits := (admits sat add).

  Definition edgeTaken (e : E) (a b : N) : Prop := forall c vs, ec a b = Some (c, vs) -> sat e c.

  Lemma conjEdge_holds e x a b : holds e (conjEdge ec x a b) <-> holds e x /\ edgeTaken e a b.
  Proof.
    unfold conjEdge, edgeTaken. destruct (ec a b) as [[c vs]|]; cbn [PathFilterSpec.holds].
    - split; intros [X Y]; split; auto; [intros c' vs' [= <- <-]; auto|apply (Y c vs); auto].
    - split; [intros X; split; auto; discriminate|tauto].
  Qed.
  Lemma conjEdges_holds e : forall l x, holds e (conjEdges ec x l) <-> holds e x /\ taken e l.
  Proof.
    induction l as [|a l IH]; intros x; [cbn; tauto|]. destruct l as [|b l]; [cbn; tauto|].
    change (conjEdges ec x (a :: b :: l)) with (conjEdges ec (conjEdge ec x a b) (b :: l)).
    rewrite IH, conjEdge_holds. cbn [PathFilterSpec.taken]. unfold edgeTaken. tauto.
  Qed.
  Lemma taken_app e a b : forall l m, taken e ((l ++ [a]) ++ b :: m) <-> taken e (l ++ [a]) /\ edgeTaken e a b /\ taken e (b :: m).
  Proof.
    induction l as [|x l IH]; intros m.
    - cbn. unfold edgeTaken. tauto.
    - specialize (IH m). destruct l as [|y l].
      + change ((([x] ++ [a]) ++ b :: m)) with (x :: a :: b :: m). change ([x] ++ [a]) with [x; a].
        cbn [PathFilterSpec.taken app] in *. unfold edgeTaken in *. tauto.
      + cbn [app PathFilterSpec.taken] in *. tauto.
  Qed.
  Lemma satisfiable_add x y : satisfiable sat (optList add ++ [x; y]) <-> exists e : E, admits e /\ holds e x /\ holds e y.
  Proof.
    unfold satisfiable, PathFilterSpec.admits. split; intros [e X]; exists e.
    - rewrite Forall_app in X. destruct X as [X1 X2]. inversion X2 as [|? ? X3 X4]; subst. inversion X4; subst. repeat split; auto.
      intros f Ef. rewrite Ef in X1. cbn in X1. inversion X1; auto.
    - destruct X as [X1 [X2 X3]]. rewrite Forall_app. split; [|auto]. destruct add as [f|]; cbn; auto.
  Qed.

  Section Filter.
    Variable G0 : pgraph N.
    Variable leaf : nat.
    Hypothesis Wf : wf G0.
    Hypothesis Ac : acyclic G0.
    Hypothesis Tags : forall v, v < size G0 -> tagOf G0 v <> [].
    Hypothesis Leaf : outEdges G0 leaf = [].
    Notation leads := (leads G0 leaf).

    Definition inner (v : nat) (e : E) : Prop := taken e (rev (tagOf G0 v)).
    Definition cross (v u : nat) (e : E) : Prop :=
      forall a b, hd_error (tagOf G0 v) = Some a -> hd_error (rev (tagOf G0 u)) = Some b -> edgeTaken e a b.
    Definition sem (v : nat) (e : E) : Prop := exists l, leads v l /\ taken e l.
    Definition via (v u : nat) (e : E) : Prop := inner v e /\ cross v u e /\ sem u e.

    Lemma tag_node v : v < size G0 -> node G0 v = Some (tagOf G0 v).
    Proof.
      intros Hv. unfold tagOf, node. destruct (nth_error (nodes G0) v) eqn:En; auto. apply nth_error_None in En.
      destruct Wf as [W _]. unfold size in Hv. lia.
    Qed.
    Lemma arc_range v u : arc G0 v u -> v < size G0 /\ u < size G0.
    Proof. intros Ha. split; [eapply arc_lt; eauto|]. exact (proj1 (proj2 Wf) _ _ _ Ha). Qed.
    Lemma leads_hd v l : leads v l -> v < size G0 -> exists m, l = rev (tagOf G0 v) ++ m.
    Proof.
      intros Hl Hv. destruct Hl as [t Ht|v u t l Ht Ha Hl].
      - rewrite tag_node in Ht by auto. injection Ht as <-. exists []. now rewrite app_nil_r.
      - rewrite tag_node in Ht by auto. injection Ht as <-. eauto.
    Qed.
    Lemma taken_via e v u l : v < size G0 -> u < size G0 -> leads u l ->
      taken e (rev (tagOf G0 v) ++ l) <-> inner v e /\ cross v u e /\ taken e l.
    Proof.
      intros Hv Hu Hl. destruct (leads_hd u l Hl Hu) as [m ->]. unfold inner, cross.
      pose proof (Tags v Hv) as Tv. pose proof (Tags u Hu) as Tu. destruct (tagOf G0 v) as [|a tv]; [congruence|].
      destruct (rev (tagOf G0 u)) as [|b tu] eqn:Er; [exfalso; apply Tu; rewrite <- (rev_involutive (tagOf G0 u)), Er; reflexivity|].
      cbn [rev hd_error app]. rewrite taken_app. split.
      - intros [X [Y Z]]. repeat split; auto. intros a' b' [= <-] [= <-]. auto.
      - intros [X [Y Z]]. repeat split; auto.
    Qed.
    Lemma sem_iff v e : v < size G0 -> sem v e <-> (v = leaf /\ inner v e) \/ exists u, arc G0 v u /\ via v u e.
    Proof.
      intros Hv. split.
      - intros [l [Hl Ht]]. destruct Hl as [t En|v u t l En Ha Hl].
        + left. split; auto. rewrite tag_node in En by auto. injection En as <-. exact Ht.
        + right. exists u. split; auto. rewrite tag_node in En by auto. injection En as <-.
          apply (taken_via e v u l Hv (proj2 (arc_range _ _ Ha)) Hl) in Ht. destruct Ht as [X [Y Z]]. repeat split; auto. exists l. auto.
      - intros [[-> Hi]|[u [Ha [Hi [Hc [l [Hl Ht]]]]]]].
        + exists (rev (tagOf G0 leaf)). split; [constructor; apply tag_node; auto|exact Hi].
        + exists (rev (tagOf G0 v) ++ l). split; [econstructor; eauto using tag_node|].
          apply (taken_via e v u l Hv (proj2 (arc_range _ _ Ha)) Hl). auto.
    Qed.

    Definition deciding : Prop := decidingSolver sat unsat.
    Hypothesis Sound : soundSolver sat unsat.

    Definition good (s : fstate N A) (x : nat) : Prop :=
      (forall e, holds e (nth x (constrs s) FTrue) -> sem x e) /\
      (forall e, admits e -> sem x e -> holds e (nth x (constrs s) FTrue)) /\
      (deciding -> forall u, arc (fg s) x u -> exists e, admits e /\ via x u e) /\
      (forall u, arc G0 x u -> In u (visited s)).
    Record finv (P : list nat) (s : fstate N A) : Prop := mkFinv {
      f_nodes : nodes (fg s) = nodes G0;
      f_adj : length (adj (fg s)) = length (adj G0);
      f_constrs : length (constrs s) = size G0;
      f_sub : forall v u, arc (fg s) v u -> arc G0 v u;
      f_keep : forall v u, arc G0 v u -> (exists e, admits e /\ via v u e) -> arc (fg s) v u;
      f_todo : forall v u, arc G0 v u -> arc (fg s) v u \/ In u (visited s);
      f_done : forall x, In x (visited s) -> ~ In x P -> good s x }.
    (** what a call for [v] leaves as it was *)
    Record fkeeps (v : option nat) (s s' : fstate N A) : Prop := mkFkeeps {
      fk_roots : roots (fg s') = roots (fg s);
      fk_vis : incl (visited s) (visited s');
      fk_out : forall x, In x (visited s) -> v <> Some x -> outEdges (fg s') x = outEdges (fg s) x;
      fk_constr : forall x, In x (visited s) -> v <> Some x -> nth x (constrs s') FTrue = nth x (constrs s) FTrue }.
    Definition fok (P : list nat) (f : nat) (rec : nat -> fstate N A -> res (form A * fstate N A)) : Prop :=
      forall v s, finv P s -> v < size G0 -> (forall p, In p P -> clos_trans _ (arc G0) p v) -> ~ In v (visited s) ->
        unvisited G0 (visited s) < f ->
        exists c s', rec v s = Ok (c, s') /\ finv P s' /\ fkeeps None s s' /\ In v (visited s') /\ c = nth v (constrs s') FTrue.

    Lemma good_keeps s s' x : outEdges (fg s') x = outEdges (fg s) x -> nth x (constrs s') FTrue = nth x (constrs s) FTrue ->
      incl (visited s) (visited s') -> good s x -> good s' x.
    Proof.
      intros Ho Ec Hv [G1 [G2 [G3 G4]]]. unfold good, arc in *. rewrite Ec, Ho. repeat split; auto.
    Qed.
    Lemma tagOf_fg P s v : finv P s -> tagOf (fg s) v = tagOf G0 v.
    Proof. intros I. unfold tagOf, node. now rewrite (f_nodes _ _ I). Qed.

    (** [y] is the constraint of the edge [v] -> [u] *)
    Definition edgeForm (v : nat) (e0 : unit * nat) (y : form A) : Prop :=
      (forall e, holds e y -> cross v (snd e0) e /\ sem (snd e0) e) /\
      (forall e, admits e -> cross v (snd e0) e -> sem (snd e0) e -> holds e y) /\
      (deciding -> exists e, admits e /\ via v (snd e0) e).

    Lemma removeEdge_out (G : pgraph N) v i u : v < size G -> outEdges (removeEdge G v i) u = if u =? v then removeAt i (outEdges G v) else outEdges G u.
    Proof. intros Hv. unfold outEdges at 1, removeEdge. cbn. now apply nth_setAt. Qed.

    Lemma filterEdges_ok P f v rec x : fok (v :: P) f rec -> v < size G0 ->
      (forall p, In p P -> clos_trans _ (arc G0) p v) -> (forall e, holds e x <-> inner v e) ->
      forall n i ys s, finv (v :: P) s -> In v (visited s) -> unvisited G0 (visited s) < f ->
        length (outEdges (fg s) v) = i + n -> Forall2 (edgeForm v) (firstn i (outEdges (fg s) v)) ys ->
        (forall u, arc G0 v u -> In (tt, u) (skipn i (outEdges (fg s) v)) \/ In u (visited s)) ->
        exists ys' s', filterEdges ec unsat rec (optList add) v x (tagOf G0 v) n i ys s = Ok (ys', s') /\
          finv (v :: P) s' /\ fkeeps (Some v) s s' /\ Forall2 (edgeForm v) (outEdges (fg s') v) ys' /\
          (forall u, arc G0 v u -> In u (visited s')).
    Proof.
      intros Rec Hv HP Hx. induction n as [|n IH]; intros i ys s I Hvis Hf Hl Hys Hu.
      - exists ys, s. cbn. split; auto. split; auto. split; [constructor; auto using incl_refl|].
        rewrite Nat.add_0_r in Hl. rewrite firstn_all2 in Hys by lia. split; auto.
        intros u Ha. destruct (Hu u Ha) as [X|]; auto. rewrite skipn_all2 in X by lia. destruct X.
      - cbn [filterEdges]. destruct (nth_error (outEdges (fg s) v) i) as [e|] eqn:Ee; [|apply nth_error_None in Ee; lia].
        destruct e as [[] u]. cbn [snd].
        assert (Ha : arc G0 v u) by (apply (f_sub _ _ I); unfold arc; eapply nth_error_In; eauto).
        destruct (arc_range _ _ Ha) as [_ Hur].
        assert (HPu : forall p, In p (v :: P) -> clos_trans _ (arc G0) p u).
        { intros p [<-|Hp]; [apply t_step; auto|]. eapply t_trans; [apply HP; auto|apply t_step; auto]. }
        assert (NP : ~ In u (v :: P)) by (intros X; exact (Ac u (HPu u X))).
        assert (Nuv : v <> u) by (intros ->; apply NP; left; auto).
        (* the target is done *)
        assert (X : exists s1, (if mem u (visited s) then Ok s else bind (rec u s) (fun r => Ok (snd r))) = Ok s1 /\
                      finv (v :: P) s1 /\ fkeeps None s s1 /\ In u (visited s1)).
        { destruct (mem u (visited s)) eqn:Em.
          - apply mem_true in Em. exists s. split; auto. split; auto. split; auto. constructor; auto using incl_refl.
          - apply mem_false in Em. destruct (Rec u s I Hur HPu Em Hf) as [c [s1 [-> [I1 [K1 [V1 _]]]]]].
            exists s1. cbn. auto. }
        destruct X as [s1 [-> [I1 [K1 V1]]]]. cbn [bind].
        assert (Ov : outEdges (fg s1) v = outEdges (fg s) v) by (apply (fk_out _ _ _ K1); auto; discriminate).
        rewrite (tagOf_fg _ _ u I1).
        pose proof (Tags v Hv) as Tv. pose proof (Tags u Hur) as Tu.
        destruct (hd_error (tagOf G0 v)) as [a|] eqn:Ea; [|destruct (tagOf G0 v); [congruence|discriminate]].
        destruct (hd_error (rev (tagOf G0 u))) as [b|] eqn:Eb.
        2:{ destruct (rev (tagOf G0 u)) eqn:Er; [|discriminate]. exfalso. apply Tu. rewrite <- (rev_involutive (tagOf G0 u)), Er. auto. }
        set (y := conjEdge ec (nth u (constrs s1) FTrue) a b).
        assert (Cr : forall e, cross v u e <-> edgeTaken e a b).
        { intros e. unfold cross. split; [intros X; apply X; auto|]. intros X a' b' E1 E2. rewrite Ea in E1. rewrite Eb in E2.
          injection E1 as <-. injection E2 as <-. auto. }
        destruct (f_done _ _ I1 u V1 NP) as [D1 [D2 [D3 D4]]].
        assert (Y1 : forall e, holds e y -> cross v u e /\ sem u e).
        { intros e Hy. apply conjEdge_holds in Hy. destruct Hy as [Y Z]. split; [apply Cr; auto|auto]. }
        assert (Y2 : forall e, admits e -> cross v u e -> sem u e -> holds e y).
        { intros e Had Hc Hs. apply conjEdge_holds. split; [auto|apply Cr; auto]. }
        assert (Hv1 : v < size (fg s1)) by (unfold size in *; rewrite (f_adj _ _ I1); auto).
        assert (Hf1 : unvisited G0 (visited s1) < f) by (pose proof (unvisited_le G0 _ _ (fk_vis _ _ _ K1)); lia).
        destruct (unsat (optList add ++ [x; y])) eqn:Eu.
        + (* the edge is removed *)
          assert (No : ~ exists e, admits e /\ via v u e).
          { intros [e [Had [V1' [V2 V3]]]]. apply (Sound _ Eu). apply satisfiable_add. exists e. split; auto. split; [apply Hx; auto|auto]. }
          set (s2 := mkF (removeEdge (fg s1) v i) (visited s1) (constrs s1)).
          rewrite <- Ov in Ee. destruct (removeAt_spec _ _ _ Ee) as [F1 [F2 F3]].
          assert (O2 : forall z, outEdges (fg s2) z = if z =? v then removeAt i (outEdges (fg s1) v) else outEdges (fg s1) z)
            by (intros z; apply removeEdge_out; auto).
          assert (Per : forall z, arc (fg s1) v z <-> z = u \/ arc (fg s2) v z).
          { intros z. unfold arc. rewrite O2, Nat.eqb_refl.
            rewrite (removeAt_In _ _ _ _ Ee). split; (intros [X|X]; [|auto]); [injection X as ->|subst]; auto. }
          assert (I2 : finv (v :: P) s2).
          { assert (Oth : forall z w, z <> v -> arc (fg s2) z w <-> arc (fg s1) z w).
            { intros z w Hz. unfold arc. rewrite O2. destruct (Nat.eqb_spec z v); [contradiction|tauto]. }
            constructor; cbn [fg visited constrs s2].
            - apply (f_nodes _ _ I1).
            - cbn. rewrite setAt_length. apply (f_adj _ _ I1).
            - apply (f_constrs _ _ I1).
            - intros z w Hz. apply (f_sub _ _ I1). destruct (Nat.eq_dec z v) as [->|Hn]; [apply Per; auto|apply Oth; auto].
            - intros z w Hz Hw. pose proof (f_keep _ _ I1 z w Hz Hw) as K. destruct (Nat.eq_dec z v) as [->|Hn]; [|apply Oth; auto].
              apply Per in K. destruct K as [->|]; auto. destruct (No Hw).
            - intros z w Hz. destruct (f_todo _ _ I1 z w Hz) as [K|]; auto. destruct (Nat.eq_dec z v) as [->|Hn]; [|left; apply Oth; auto].
              apply Per in K. destruct K as [->|]; auto.
            - intros z Hz Hn. apply (good_keeps s1); auto using incl_refl; [|apply (f_done _ _ I1); auto].
              unfold s2. cbn [fg]. rewrite removeEdge_out by auto. destruct (Nat.eqb_spec z v) as [->|]; auto. destruct Hn. left; auto. }
          destruct (IH i ys s2) as [ys' [s' [R1 [R2 [R3 [R4 R5]]]]]]; auto.
          * cbn. apply (fk_vis _ _ _ K1). auto.
          * rewrite O2, Nat.eqb_refl. rewrite Ov in F3. rewrite Ov. lia.
          * rewrite O2, Nat.eqb_refl, F1, Ov. exact Hys.
          * intros z Hz. rewrite O2, Nat.eqb_refl. cbn [s2 visited]. destruct (Hu z Hz) as [X|X]; [|right; apply (fk_vis _ _ _ K1); auto].
            rewrite <- Ov in X. apply (Permutation_in _ F2) in X. destruct X as [[= ->]|]; auto.
          * exists ys', s'. split; [exact R1|]. split; auto. split; [|split; auto]. destruct R3 as [R31 R32 R33 R34]. constructor.
            -- rewrite R31. cbn. apply (fk_roots _ _ _ K1).
            -- intros z Hz. apply R32. cbn. apply (fk_vis _ _ _ K1). auto.
            -- intros z Hz Hn. rewrite R33; auto; [|cbn; apply (fk_vis _ _ _ K1); auto]. rewrite O2.
               destruct (Nat.eqb_spec z v) as [->|]; [congruence|]. apply (fk_out _ _ _ K1); auto. discriminate.
            -- intros z Hz Hn. rewrite R34; auto; [|cbn; apply (fk_vis _ _ _ K1); auto].
               apply (fk_constr _ _ _ K1); auto. discriminate.
        + (* the edge is kept *)
          assert (Yes : deciding -> exists e, admits e /\ via v u e).
          { intros Dc. specialize (Dc (optList add ++ [x; y])). rewrite Eu in Dc. apply satisfiable_add in Dc.
            destruct Dc as [e [Z1 [Z2 Z3]]]. exists e. split; auto. apply Y1 in Z3. split; [apply Hx; auto|auto]. }
          destruct (IH (S i) (ys ++ [y]) s1) as [ys' [s' [R1 [R2 [R3 [R4 R5]]]]]]; auto.
          * apply (fk_vis _ _ _ K1). auto.
          * rewrite Ov. lia.
          * rewrite Ov. assert (Ef : firstn (S i) (outEdges (fg s) v) = firstn i (outEdges (fg s) v) ++ [(tt, u)]).
            { destruct (nth_error_split _ _ Ee) as [p [q [-> <-]]]. rewrite !firstn_app, firstn_all2, firstn_all by lia.
              replace (S (length p) - length p) with 1 by lia. rewrite Nat.sub_diag. cbn. now rewrite app_nil_r. }
            rewrite Ef. apply Forall2_app; auto. constructor; auto. split; auto.
          * intros z Hz. rewrite Ov. destruct (Hu z Hz) as [X|X]; [|right; apply (fk_vis _ _ _ K1); auto].
            destruct (nth_error_split _ _ Ee) as [p [q [Eo Lp]]]. rewrite Eo in *. subst i.
            rewrite skipn_app, skipn_all, Nat.sub_diag in X. cbn [skipn app] in X. destruct X as [[= ->]|X]; auto.
            left. rewrite skipn_app. apply in_app_iff. right. replace (S (length p) - length p) with 1 by lia. exact X.
          * exists ys', s'. split; [exact R1|]. split; auto. split; [|split; auto]. destruct R3 as [R31 R32 R33 R34]. constructor.
            -- rewrite R31. apply (fk_roots _ _ _ K1).
            -- intros z Hz. apply R32. apply (fk_vis _ _ _ K1). auto.
            -- intros z Hz Hn. rewrite R33; auto; [|apply (fk_vis _ _ _ K1); auto]. apply (fk_out _ _ _ K1); auto. discriminate.
            -- intros z Hz Hn. rewrite R34; auto; [|apply (fk_vis _ _ _ K1); auto]. apply (fk_constr _ _ _ K1); auto. discriminate.
    Qed.

    Lemma fold_FOr e : forall l f, holds e (fold_left FOr l f) <-> holds e f \/ Exists (holds e) l.
    Proof.
      induction l as [|g l IH]; intros f; cbn [fold_left]; [split; auto; intros [|X]; auto; inversion X|].
      rewrite IH. cbn [PathFilterSpec.holds]. rewrite Exists_cons. tauto.
    Qed.
    Lemma nth_setAt_same {B} (l : list B) v a d : v < length l -> nth v (setAt v a l) d = a.
    Proof. intros Hv. rewrite nth_setAt by auto. now rewrite Nat.eqb_refl. Qed.

    (** one call; [v] may have been visited before *)
    Lemma doFilter_step P f v s : fok (v :: P) f (doFilter ec unsat f (optList add) leaf) -> finv P s -> v < size G0 ->
      (forall p, In p P -> clos_trans _ (arc G0) p v) -> unvisited G0 (v :: visited s) < f ->
      exists c s', doFilter ec unsat (S f) (optList add) leaf v s = Ok (c, s') /\ finv P s' /\ fkeeps (Some v) s s' /\
        In v (visited s') /\ c = nth v (constrs s') FTrue /\ (outEdges (fg s') v = [] -> v <> leaf -> c = FFalse).
    Proof.
      intros Rec I Hv HP Hf. cbn [doFilter]. rewrite (tagOf_fg _ _ v I). pose proof (Tags v Hv) as Tv.
      destruct (Nat.eqb_spec (length (tagOf G0 v)) 0) as [El|_]; [destruct (tagOf G0 v); [congruence|discriminate]|].
      assert (NP : ~ In v P) by (intros X; exact (Ac v (HP v X))).
      set (x := conjEdges ec FTrue (rev (tagOf G0 v))).
      assert (Hx : forall e, holds e x <-> inner v e).
      { intros e. unfold x. rewrite conjEdges_holds. cbn. unfold inner. tauto. }
      set (s1 := mkF (fg s) (v :: visited s) (constrs s)).
      assert (I1 : finv (v :: P) s1).
      { destruct I as [I1 I2 I3 I4 I5 I6 I7]. constructor; auto; cbn [fg visited constrs s1].
        - intros z w Hz. destruct (I6 z w Hz); auto. right; right; auto.
        - intros z Hz Hn. destruct Hz as [<-|Hz]; [destruct Hn; left; auto|].
          apply (good_keeps s); cbn; auto; [intros y Hy; right; auto|]. apply I7; auto. intros X. apply Hn. right; auto. }
      destruct (filterEdges_ok P f v _ x Rec Hv HP Hx (length (outEdges (fg s) v)) 0 [] s1 I1) as [ys [s2 [R1 [R2 [R3 [R4 R5]]]]]]; auto.
      { left; auto. }
      { cbn. constructor. }
      { intros u Ha. cbn [skipn]. exact (f_todo _ _ I1 v u Ha). }
      fold s1. rewrite R1. cbn [bind].
      assert (Hc2 : v < length (constrs s2)) by (rewrite (f_constrs _ _ R2); auto).
      assert (Fin : forall c,
        (forall e, holds e c -> sem v e) -> (forall e, admits e -> sem v e -> holds e c) ->
        (outEdges (fg s2) v = [] -> v <> leaf -> c = FFalse) ->
        exists c' s', Ok (c, mkF (fg s2) (visited s2) (setAt v c (constrs s2))) = Ok (c', s') /\
          finv P s' /\ fkeeps (Some v) s s' /\ In v (visited s') /\ c' = nth v (constrs s') FTrue /\
          (outEdges (fg s') v = [] -> v <> leaf -> c' = FFalse)).
      { intros c C1 C2 C3. eexists. eexists. split; [reflexivity|]. cbn [fg visited constrs].
        assert (Vin : In v (visited s2)) by (apply (fk_vis _ _ _ R3); left; auto).
        split; [|split; [|split; [|split]]].
        - destruct R2 as [Q1 Q2 Q3 Q4 Q5 Q6 Q7]. constructor; auto; cbn [fg visited constrs].
          + rewrite setAt_length. auto.
          + intros z Hz Hn. destruct (Nat.eq_dec z v) as [->|Hzv].
            * unfold good. cbn [constrs fg visited]. rewrite nth_setAt_same by auto. repeat split; auto.
              intros Dc u Hu. unfold arc in Hu.
              assert (X : exists y, edgeForm v (tt, u) y).
              { clear -R4 Hu. induction R4 as [|e y l l' Hy Hl IH]; [destruct Hu|]. destruct Hu as [->|Hu]; eauto. }
              destruct X as [y [_ [_ X]]]. apply X; auto.
            * apply (good_keeps s2); cbn [fg visited constrs]; auto using incl_refl.
              -- rewrite nth_setAt by auto. destruct (Nat.eqb_spec z v); [contradiction|auto].
              -- apply Q7; auto. intros [X|X]; [congruence|auto].
        - destruct R3 as [K1 K2 K3 K4]. constructor; cbn [fg visited constrs].
          + exact K1.
          + intros z Hz. apply K2. right; auto.
          + intros z Hz Hn. rewrite K3; auto. right; auto.
          + intros z Hz Hn. rewrite nth_setAt by auto. destruct (Nat.eqb_spec z v) as [->|]; [congruence|]. rewrite K4; auto. right; auto.
        - exact Vin.
        - symmetry. apply nth_setAt_same; auto.
        - exact C3. }
      destruct (Nat.eqb_spec (length (outEdges (fg s2) v)) 0) as [E0|E0].
      - assert (Eo : outEdges (fg s2) v = []) by (destruct (outEdges (fg s2) v); [auto|discriminate]).
        assert (No : forall u e, arc G0 v u -> admits e -> ~ via v u e).
        { intros u e Ha Had Hvia. assert (X : arc (fg s2) v u) by (apply (f_keep _ _ R2); eauto). unfold arc in X. rewrite Eo in X. destruct X. }
        destruct (Nat.eqb_spec v leaf) as [->|Hl]; apply Fin; try congruence.
        + intros e Hh. apply sem_iff; auto. left. split; auto. apply Hx; auto.
        + intros e Had Hs. apply sem_iff in Hs; auto. destruct Hs as [[_ Hi]|[u [Ha Hvia]]]; [apply Hx; auto|destruct (No _ _ Ha Had Hvia)].
        + intros e [].
        + intros e Had Hs. apply sem_iff in Hs; auto. destruct Hs as [[X _]|[u [Ha Hvia]]]; [contradiction|destruct (No _ _ Ha Had Hvia)].
      - destruct ys as [|y ys]; [inversion R4 as [X|]; rewrite <- X in E0; destruct (E0 eq_refl)|].
        assert (Hy : forall e, holds e (FAnd x (fold_left FOr ys y)) <-> inner v e /\ Exists (holds e) (y :: ys)).
        { intros e. cbn [PathFilterSpec.holds]. rewrite Hx, fold_FOr, Exists_cons. tauto. }
        apply Fin.
        + intros e He. apply Hy in He. destruct He as [He1 He2]. apply sem_iff; auto. right.
          assert (X : exists e0 y0, In e0 (outEdges (fg s2) v) /\ edgeForm v e0 y0 /\ holds e y0).
          { clear -R4 He2. revert He2. generalize dependent (y :: ys). generalize (outEdges (fg s2) v). intros l l' Hl. induction Hl as [|a b l l' Hab Hl IH]; intros He; inversion He as [? ? Hb|? ? Hb]; subst.
            - exists a, b. split; [left|]; auto.
            - destruct (IH Hb) as [e0 [y0 [A1 A2]]]. exists e0, y0. split; [right|]; auto. }
          destruct X as [[[] u] [y0 [X1 [[X2 _] X3]]]]. exists u. split; [apply (f_sub _ _ R2); auto|].
          destruct (X2 e X3) as [Z1 Z2]. repeat split; auto.
        + intros e Had Hs. apply Hy. apply sem_iff in Hs; auto. destruct Hs as [[-> Hi]|[u [Ha Hvia]]].
          * exfalso. apply E0. destruct (outEdges (fg s2) leaf) as [|[[] w] l] eqn:Eo; auto. exfalso.
            assert (X : arc G0 leaf w) by (apply (f_sub _ _ R2); unfold arc; rewrite Eo; left; auto). unfold arc in X. rewrite Leaf in X. destruct X.
          * split; [apply Hvia|]. assert (X : arc (fg s2) v u) by (apply (f_keep _ _ R2); eauto). unfold arc in X.
            clear -R4 X Had Hvia. revert X. generalize dependent (y :: ys). generalize (outEdges (fg s2) v). intros l l' Hl. induction Hl as [|a b l l' Hab Hl IH]; intros X; [destruct X|].
            destruct X as [->|X]; [left; apply (proj1 (proj2 Hab)); auto; apply Hvia|right; auto].
        + intros Eo. rewrite Eo in E0. destruct (E0 eq_refl).
    Qed.

    Lemma doFilter_ok : forall f P, fok P f (doFilter ec unsat f (optList add) leaf).
    Proof.
      induction f as [|f IH]; intros P v s I Hv HP Hn Hf; [lia|].
      pose proof (unvisited_lt G0 (visited s) v Hv Hn) as Lt.
      destruct (doFilter_step P f v s (IH (v :: P)) I Hv HP) as [c [s' [R1 [R2 [R3 [R4 [R5 _]]]]]]]; [lia|].
      exists c, s'. split; auto. split; auto. split; auto. destruct R3 as [K1 K2 K3 K4]. constructor; auto.
      - intros z Hz _. apply K3; auto. intros [= ->]. contradiction.
      - intros z Hz _. apply K4; auto. intros [= ->]. contradiction.
    Qed.
    (** for a root *)
    Lemma doFilter_root f v s : finv [] s -> v < size G0 -> size G0 < f ->
      exists c s', doFilter ec unsat (S f) (optList add) leaf v s = Ok (c, s') /\ finv [] s' /\ fkeeps (Some v) s s' /\
        In v (visited s') /\ c = nth v (constrs s') FTrue /\ (outEdges (fg s') v = [] -> v <> leaf -> c = FFalse).
    Proof.
      intros I Hv Hf. apply doFilter_step; auto using doFilter_ok; [intros p []|].
      assert (unvisited G0 (v :: visited s) <= size G0); [|lia]. unfold unvisited.
      rewrite <- (seq_length (size G0) 0) at 2. clear. induction (seq 0 (size G0)) as [|a l IHl]; cbn [filter]; auto. destruct (negb _); cbn [length]; lia.
    Qed.

    (** the roots from [i] on are still to be looked at *)
    Lemma filterRoots_ok f : size G0 < f -> forall n i ret s, finv [] s -> length (roots (fg s)) = i + n -> NoDup (roots (fg s)) ->
      (forall r, In r (roots (fg s)) -> r < size G0) ->
      (forall r, In r (firstn i (roots (fg s))) -> In r (visited s) /\ (r = leaf \/ outEdges (fg s) r <> [])) ->
      exists ret' s', filterRoots ec unsat (S f) (optList add) leaf n i ret s = Ok (ret', s') /\ finv [] s' /\
        NoDup (roots (fg s')) /\
        (forall r, In r (roots (fg s')) -> In r (roots (fg s)) /\ In r (visited s') /\ (r = leaf \/ outEdges (fg s') r <> [])) /\
        (forall r, In r (roots (fg s)) -> In r (roots (fg s')) \/ (outEdges (fg s') r = [] /\ r <> leaf /\ In r (visited s'))) /\
        incl (visited s) (visited s') /\
        (forall x, In x (visited s) -> ~ In x (skipn i (roots (fg s))) -> outEdges (fg s') x = outEdges (fg s) x) /\
        (forall e, holds e ret' -> holds e ret \/ exists r, In r (skipn i (roots (fg s))) /\ sem r e) /\
        (forall e, holds e ret -> holds e ret') /\
        (forall e r, admits e -> In r (skipn i (roots (fg s))) -> sem r e -> holds e ret').
    Proof.
      intros Hf. induction n as [|n IH]; intros i ret s I Hl Nd Hr Hd.
      - exists ret, s. cbn. rewrite firstn_all2 in Hd by lia. rewrite skipn_all2 by lia.
        split; auto. split; auto. split; auto. split; [intros r X; destruct (Hd r X); auto|]. split; auto. split; auto using incl_refl.
        split; auto. split; auto. split; auto. intros e r _ [].
      - cbn [filterRoots]. destruct (nth_error (roots (fg s)) i) as [r|] eqn:Er; [|apply nth_error_None in Er; lia].
        assert (Hri : In r (roots (fg s))) by (eapply nth_error_In; eauto).
        destruct (doFilter_root f r s I (Hr r Hri) Hf) as [c [s1 [-> [I1 [K1 [V1 [C1 C2]]]]]]]. cbn [bind].
        pose proof (f_done _ _ I1 r V1 (fun x => x)) as Gr. destruct Gr as [Gr1 [Gr2 _]]. rewrite <- C1 in Gr1, Gr2.
        destruct K1 as [K1 K2 K3 K4].
        assert (Sp : exists p q, roots (fg s) = p ++ r :: q /\ length p = i /\ ~ In r p /\ ~ In r q).
        { destruct (nth_error_split _ _ Er) as [p [q [Ep Lp]]]. exists p, q. rewrite Ep in Nd. apply NoDup_remove in Nd.
          destruct Nd as [_ Nd]. rewrite in_app_iff in Nd. repeat split; auto. }
        destruct Sp as [p [q [Ep [Lp [Np Nq]]]]].
        assert (Sk : skipn i (roots (fg s)) = r :: q).
        { rewrite Ep, <- Lp, skipn_app, skipn_all, Nat.sub_diag. reflexivity. }
        assert (Fi : firstn i (roots (fg s)) = p).
        { rewrite Ep, <- Lp, firstn_app, firstn_all, Nat.sub_diag. cbn. apply app_nil_r. }
        assert (Hd1 : forall z, In z p -> In z (visited s1) /\ (z = leaf \/ outEdges (fg s1) z <> [])).
        { intros z Hz. assert (z <> r) by (intros ->; auto). destruct (Hd z) as [Az Bz]; [rewrite Fi; auto|]. split; [apply K2; auto|].
          rewrite K3; [exact Bz|exact Az|congruence]. }
        destruct (negb (r =? leaf) && (length (outEdges (fg s1) r) =? 0)) eqn:Eb.
        + apply andb_true_iff in Eb. destruct Eb as [E1 E2]. apply negb_true_iff, Nat.eqb_neq in E1. apply Nat.eqb_eq in E2.
          assert (Eo : outEdges (fg s1) r = []) by (destruct (outEdges (fg s1) r); [auto|discriminate]).
          set (s2 := mkF (removeRoot (fg s1) i) (visited s1) (constrs s1)).
          assert (Er1 : nth_error (roots (fg s1)) i = Some r) by (rewrite K1; auto).
          destruct (removeAt_spec _ _ _ Er1) as [F1 [F2 F3]].
          assert (Rs : roots (fg s2) = removeAt i (roots (fg s1))) by reflexivity.
          assert (Ou : forall z, outEdges (fg s2) z = outEdges (fg s1) z) by reflexivity.
          assert (Pq : Permutation q (skipn i (roots (fg s2)))).
          { rewrite Rs. apply (Permutation_cons_inv (a := r)). rewrite <- F2, K1, Sk. reflexivity. }
          assert (Fp : firstn i (roots (fg s2)) = p) by (rewrite Rs, F1, K1; auto).
          assert (Rin : forall z, In z (roots (fg s)) <-> z = r \/ In z (roots (fg s2))).
          { intros z. rewrite <- K1. apply (removeAt_In _ _ _ _ Er1). }
          assert (Nd2 : NoDup (roots (fg s2)) /\ ~ In r (roots (fg s2))).
          { assert (X : Permutation (roots (fg s)) (r :: roots (fg s2))).
            { rewrite <- (firstn_skipn i (roots (fg s2))), Fp, Ep, <- Pq. apply Permutation_sym, Permutation_middle. }
            apply (Permutation_NoDup X) in Nd. inversion Nd; auto. }
          destruct Nd2 as [Nd2 Nr2].
          assert (I2 : finv [] s2).
          { destruct I1 as [Q1 Q2 Q3 Q4 Q5 Q6 Q7]. constructor; auto. }
          destruct (IH i (FOr ret c) s2 I2) as [ret' [s' [R1 [R2 [R3 [R4 [R5 [R6 [R7 [R8 [R9 R10]]]]]]]]]]]; auto.
          * rewrite Rs. rewrite K1 in F3. rewrite K1. lia.
          * intros z Hz. apply Hr. apply Rin. auto.
          * intros z Hz. rewrite Fp in Hz. rewrite Ou. apply Hd1; auto.
          * exists ret', s'. split; [exact R1|]. split; auto. split; auto. split; [|split; [|split; [|split; [|split; [|split]]]]].
            -- intros z Hz. destruct (R4 z Hz) as [Az [Bz Cz]]. split; auto. apply Rin. auto.
            -- intros z Hz. apply Rin in Hz. destruct Hz as [->|Hz]; auto. right.
               assert (Nsk : ~ In r (skipn i (roots (fg s2)))).
               { intros X. apply Nr2. rewrite <- (firstn_skipn i (roots (fg s2))). apply in_app_iff. auto. }
               rewrite R7; auto.
            -- intros z Hz. apply R6. cbn. apply K2; auto.
            -- rewrite Sk. intros z Hz Hn. rewrite R7, Ou.
               ++ apply K3; auto. intros [= ->]. apply Hn. left; auto.
               ++ cbn. apply K2; auto.
               ++ intros X. apply Hn. right. apply (Permutation_in _ (Permutation_sym Pq)). auto.
            -- rewrite Sk. intros e He. destruct (R8 e He) as [[X|X]|[z [Z1 Z2]]]; auto.
               ++ right. exists r. split; [left|]; auto.
               ++ right. exists z. split; auto. right. apply (Permutation_in _ (Permutation_sym Pq)). auto.
            -- intros e He. apply R9. left; auto.
            -- rewrite Sk. intros e z Had [<-|Hz] Hs; [apply R9; right; auto|]. apply (R10 e z); auto. apply (Permutation_in _ Pq). auto.
        + destruct (IH (S i) (FOr ret c) s1 I1) as [ret' [s' [R1 [R2 [R3 [R4 [R5 [R6 [R7 [R8 [R9 R10]]]]]]]]]]]; auto.
          * rewrite K1. lia.
          * rewrite K1. auto.
          * rewrite K1. auto.
          * rewrite K1. intros z Hz.
            assert (Fi' : firstn (S i) (roots (fg s)) = p ++ [r]).
            { rewrite Ep, <- Lp, firstn_app, firstn_all2 by lia. replace (S (length p) - length p) with 1 by lia. reflexivity. }
            rewrite Fi' in Hz. apply in_app_iff in Hz. destruct Hz as [Hz|[<-|[]]]; auto. split; auto.
            apply andb_false_iff in Eb. destruct Eb as [Eb|Eb].
            -- apply negb_false_iff, Nat.eqb_eq in Eb. auto.
            -- apply Nat.eqb_neq in Eb. right. intros X. rewrite X in Eb. destruct (Eb eq_refl).
          * assert (Sk' : skipn (S i) (roots (fg s1)) = q).
            { rewrite K1, Ep, <- Lp, skipn_app, skipn_all2 by lia. replace (S (length p) - length p) with 1 by lia. reflexivity. }
            rewrite Sk' in *. rewrite K1 in *.
            exists ret', s'. split; [exact R1|]. split; auto. split; auto. split; [|split; [|split; [|split; [|split; [|split]]]]]; auto.
            -- intros z Hz. apply R6. apply K2; auto.
            -- rewrite Sk. intros z Hz Hn. rewrite R7; auto.
               ++ apply K3; auto. intros [= ->]. apply Hn. left; auto.
               ++ intros X. apply Hn. right. auto.
            -- rewrite Sk. intros e He. destruct (R8 e He) as [[X|X]|[z [Z1 Z2]]]; auto.
               ++ right. exists r. split; [left|]; auto.
               ++ right. exists z. split; auto. right. auto.
            -- intros e He. apply R9. left; auto.
            -- rewrite Sk. intros e z Had [<-|Hz] Hs; [apply R9; right; auto|]. apply (R10 e z); auto.
    Qed.

    Notation reach G := (clos_refl_trans _ (arc G)).
    Lemma filterOut_ok fuel : NoDup (roots G0) -> size G0 + 1 < fuel ->
      exists c G', filterOutUnreachableNodes ec unsat fuel add leaf G0 = Ok (c, G') /\
        nodes G' = nodes G0 /\ length (adj G') = length (adj G0) /\ (forall v u, arc G' v u -> arc G0 v u) /\
        NoDup (roots G') /\ incl (roots G') (roots G0) /\
        (forall v l e, v < size G0 -> admits e -> leads v l -> taken e l -> PathFilterSpec.leads G' leaf v l) /\
        (forall r l, In r (roots G0) -> leads r l -> feasible sat ec add l -> In r (roots G')) /\
        (deciding -> forall r x, In r (roots G') -> reach G' r x -> x = leaf \/ outEdges G' x <> []) /\
        (deciding -> forall r v u, In r (roots G') -> reach G' r v -> arc G' v u ->
           exists l, PathFilterSpec.leads G' leaf u l /\ feasible sat ec add (rev (tagOf G0 v) ++ l)) /\
        (forall e, holds e c -> exists r l, In r (roots G0) /\ leads r l /\ taken e l) /\
        (forall e r l, admits e -> In r (roots G0) -> leads r l -> taken e l -> holds e c).
    Proof.
      intros Nd Hf. destruct fuel as [|f]; [lia|].
      set (s0 := mkF G0 [] (repeat FTrue (size G0)) : fstate N A).
      assert (I0 : finv [] s0).
      { constructor; cbn [fg visited constrs s0]; auto; [apply repeat_length|]. intros x []. }
      destruct (filterRoots_ok f ltac:(lia) (length (roots G0)) 0 FFalse s0 I0) as
        [c [s' [R1 [R2 [R3 [R4 [R5 [R6 [R7 [R8 [R9 R10]]]]]]]]]]]; auto.
      { apply (proj2 (proj2 Wf)). }
      cbn [skipn fg s0] in *. exists c, (fg s'). unfold filterOutUnreachableNodes. fold s0. rewrite R1. cbn [bind fst snd].
      assert (Keep : forall v l, leads v l -> v < size G0 -> forall e, admits e -> taken e l -> PathFilterSpec.leads (fg s') leaf v l).
      { assert (Nn : forall v t, node G0 v = Some t -> node (fg s') v = Some t) by (intros; unfold node; now rewrite (f_nodes _ _ R2)).
        induction 1 as [t Ht|v u t l Ht Ha Hl IH]; intros Hv e Had Htk; [constructor; auto|].
        assert (Et : t = tagOf G0 v) by (rewrite tag_node in Ht by auto; congruence). subst t.
        destruct (arc_range _ _ Ha) as [_ Hu].
        apply (taken_via e v u l Hv Hu Hl) in Htk. destruct Htk as [T1 [T2 T3]]. econstructor; eauto.
        apply (f_keep _ _ R2); auto. exists e. split; auto. split; auto. split; auto. exists l. auto. }
      assert (Alive : forall x e, x < size G0 -> admits e -> sem x e -> x = leaf \/ outEdges (fg s') x <> []).
      { intros x e Hx Had Hs. apply sem_iff in Hs; auto. destruct Hs as [[X _]|[u [Ha Hv]]]; auto. right. intros Eo.
        assert (X : arc (fg s') x u) by (apply (f_keep _ _ R2); eauto). unfold arc in X. rewrite Eo in X. destruct X. }
      assert (Vis : forall r x, In r (roots (fg s')) -> reach (fg s') r x -> In x (visited s')).
      { intros r x Hr Hx. apply clos_rt_rtn1 in Hx. induction Hx as [|y z Hy _ IH]; [apply R4; auto|].
        destruct (f_done _ _ R2 y IH (fun k => k)) as [_ [_ [_ D]]]. apply D. apply (f_sub _ _ R2); auto. }
      assert (Via : deciding -> forall r v u, In r (roots (fg s')) -> reach (fg s') r v -> arc (fg s') v u -> exists e, admits e /\ via v u e).
      { intros Dc r v u Hr Hv Hu. destruct (f_done _ _ R2 v (Vis r v Hr Hv) (fun k => k)) as [_ [_ [D _]]]. apply D; auto. }
      split; [reflexivity|]. split; [apply (f_nodes _ _ R2)|]. split; [apply (f_adj _ _ R2)|]. split; [apply (f_sub _ _ R2)|].
      split; auto. split; [intros r Hr; apply R4; auto|]. split; [|split; [|split; [|split; [|split]]]].
      - intros v l e Hv Had Hl Ht. eapply Keep; eauto.
      - intros r l Hr Hl [e [Had Ht]]. assert (Hrs : r < size G0) by (apply (proj2 (proj2 Wf)); auto).
        destruct (R5 r Hr) as [|[X [Y _]]]; auto. destruct (Alive r e Hrs Had) as [|]; [exists l; auto|contradiction|contradiction].
      - intros Dc r x Hr Hx. apply clos_rt_rtn1 in Hx. destruct Hx as [|y z Hy Hx]; [apply R4; auto|].
        apply clos_rtn1_rt in Hx. destruct (Via Dc r y z Hr Hx Hy) as [e [Had [_ [_ Hs]]]]. apply (Alive z e); auto.
        apply (arc_range y z). apply (f_sub _ _ R2); auto.
      - intros Dc r v u Hr Hv Hu. destruct (Via Dc r v u Hr Hv Hu) as [e [Had [V1 [V2 [l [V3 V4]]]]]].
        destruct (arc_range v u (f_sub _ _ R2 _ _ Hu)) as [Lv Lu]. exists l. split; [eapply Keep; eauto|].
        exists e. split; auto. apply (taken_via e v u l Lv Lu V3). auto.
      - intros e He. destruct (R8 e He) as [[]|[r [X [l [Y Z]]]]]. exists r, l. auto.
      - intros e r l Had Hr Hl Ht. apply (R10 e r); auto. exists l. auto.
    Qed.
  End Filter.
End F.
