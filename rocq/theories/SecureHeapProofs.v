From Coq Require Import String List Bool Arith Lia.
From Verif Require Import Assoc TableModel IDESolverModel IDESpec IRProgramModel EdgeFunctionModel
  SecureHeapModel SecureHeapSpec.
Import ListNotations.

Lemma vpath_any {N F D L E : Type} (G : icfg N F) (P : problem N F D L E) Q Init cf :
  vpath G P Q Init cf -> vpath G P (@anyval L) Init cf.
Proof. induction 1; [apply vp_init|eapply vp_step]; eauto; exact I. Qed.

Section P.
  Context {N F : Type} {EN : EqDec N} {EF : EqDec F}.
  Variable soo : bool.
  Variable p : prog N F.
  Variable name : F -> string.
  Local Notation P := (shpProblem soo p name).
  Local Notation G := (irICFG p).

  Ltac cases f := destruct f as [[| | |[]| | | |] ?Hf]; try discriminate.
  Lemma shp_lattice : lattice_laws P.
  Proof. split; cbn; repeat intros []; try reflexivity; cbn; split; congruence. Qed.
  Lemma shp_ef_sound : ef_sound_nt P.
  Proof.
    split; unfold lle, nontop; cbn.
    - intros f [] [] ?; cases f; cbn; auto; try congruence; try contradiction.
    - reflexivity.
    - reflexivity.
    - intros f g; cases f; cases g; cbn; try discriminate; auto.
    - intros f g x; cases f; cases g; destruct x, soo; cbn; auto; congruence.
    - intros f g x; cases f; cases g; destruct x, soo; reflexivity.
    - intros f g x; cases f; cases g; destruct x, soo; reflexivity.
  Qed.
  Definition frank (f : hedge) : nat := match proj1_sig f with ETop => 3 | EConst TOP => 2 | EBot => 0 | _ => 1 end.
  Definition vrank (v : heapValue) : nat := match v with TOP => 2 | INIT => 1 | BOT => 0 end.
  Lemma shp_height : finite_height P frank vrank.
  Proof.
    split; unfold frank; cbn.
    - intros f g; cases f; cases g; destruct soo; cbn; try discriminate; intros; lia.
    - intros f; cases f; cbn; lia.
    - intros f; cases f; cbn; auto; discriminate.
    - intros [] []; cbn; try discriminate; lia.
  Qed.
  Lemma shp_facts main : facts_closed P (shpSeeds p main) [ZERO; INITIALIZED].
  Proof. split; intros; cbn; auto; try (destruct d'; auto; fail). destruct d; auto. Qed.

  Hypothesis nodes_all : forall n, In n (nodes p).
  Hypothesis succ_fun : forall n n', In n' (succs p n) -> fnOf p n' = fnOf p n.
  Hypothesis entry_fun : forall f sp, entry p f = Some sp -> fnOf p sp = f.
  Hypothesis noentry : forall n n' f, In n' (succs p n) -> entry p f <> Some n'.
  Lemma start_spec n : isStart p n = true <-> entry p (fnOf p n) = Some n.
  Proof. unfold isStart. destruct (entry p (fnOf p n)) as [sp|]; [|split; discriminate]. rewrite eqb_true. split; congruence. Qed.
  Lemma ir_wf : icfg_wf G.
  Proof.
    assert (NS : forall n n', In n' (succs p n) -> isStart p n' = false).
    { intros n n' H. apply not_true_is_false. intros E. apply start_spec in E. now apply (noentry _ _ _ H) in E. }
    split; cbn; auto.
    - intros f sp H. destruct (entry p f) as [s|] eqn:E; [|destruct H]. destruct H as [->|[]]. now apply entry_fun.
    - intros n. rewrite start_spec. destruct (entry p (fnOf p n)) as [s|]; cbn; [|intuition discriminate].
      split; [intros [= ->]; now left|intros [->|[]]; auto].
    - intros c. rewrite filter_In, andb_true_iff, eqb_true. pose proof (nodes_all c). intuition.
    - intros f c H. apply filter_In in H as [_ H]. apply andb_true_iff in H as [_ H]. now apply eqb_eq in H.
    - intros n. rewrite filter_In, andb_true_iff, !negb_true_iff. pose proof (nodes_all n). intuition.
  Qed.
  Lemma shp_starts main : seeds_at_starts G (shpSeeds p main).
  Proof.
    intros n facts H. unfold shpSeeds in H. destruct (entry p main) as [sp|] eqn:E; [|destruct H].
    destruct H as [[= <- _]|[]]. cbn. apply start_spec. now rewrite (entry_fun _ _ E).
  Qed.

  Lemma shp_ef_sound' : ef_sound P.
  Proof.
    split; unfold lle; cbn.
    - intros f [] []; cases f; cbn; auto; congruence.
    - reflexivity.
    - reflexivity.
    - intros f g; cases f; cases g; cbn; try discriminate; auto.
    - intros f g x; cases f; cases g; destruct x, soo; reflexivity.
    - intros f g x; cases f; cases g; destruct x, soo; reflexivity.
    - intros f g x; cases f; cases g; destruct x, soo; reflexivity.
  Qed.

  (** the jump functions that occur *)
  Definition shape (d1 : heapFact) (_ : N) (d2 : heapFact) (f : hedge) : Prop :=
    match d1, d2, proj1_sig f with
    | ZERO, ZERO, EId => True
    | ZERO, INITIALIZED, (EConst INIT | EConst BOT | EBot) => True
    | INITIALIZED, INITIALIZED, (EId | EConst BOT | EBot) => True
    | _, _, _ => False
    end.
  Lemma shape_comp d1 n d2 f d3 g m : shape d1 n d2 f -> shape d2 n d3 g -> shape d1 m d3 (composeH soo f g).
  Proof. cases f; cases g; destruct d1, d2, d3; cbn; tauto. Qed.
  Lemma shape_ctr n n' d d' : In d' (ctrFlow p name n d) -> shape d n d' (ctrEdge p name n d n' d').
  Proof.
    unfold ctrFlow, idFlow, ctrEdge. destruct (calls p name n InitializerFn), d, d'; cbn; try (intuition discriminate);
      destruct (calls p name n ShutdownFn); cbn; auto.
  Qed.
  Lemma shape_at d1 n d2 f m : shape d1 n d2 f -> shape d1 m d2 f.
  Proof. exact (fun H => H). Qed.
  Lemma shape_id n d : shape d n d idH.
  Proof. destruct d; exact I. Qed.
  Lemma shp_precise : ef_precise_on G P shape.
  Proof.
    split; unfold lle; cbn -[shape].
    - intros f x y; cases f; destruct x, y; reflexivity.
    - intros f g x; cases f; cases g; destruct x, soo; cbn; auto; discriminate.
    - intros f g; cases f; cases g; destruct soo; cbn; auto; discriminate.
    - reflexivity.
    - intros d1 n d2 f g x; cases f; cases g; destruct d1, d2; cbn; try tauto; destruct x, soo; reflexivity.
    - intros f x; cases f; destruct x; reflexivity.
    - intros d1 n d2 f g; cases f; cases g; destruct d1, d2; cbn; try tauto; destruct soo; cbn; tauto.
    - intros d1 n d2 f H; cases f; destruct d1, d2; cbn in *; tauto.
    - intros n d. apply shape_id.
    - intros d1 n d2 f n' d3 H _ _ [<-|[]]. eapply shape_comp; [exact H|apply shape_id].
    - intros d1 n d2 f n' d3 H _ _ I3. eapply shape_comp; [exact H|now apply shape_ctr].
    - discriminate.
    - intros d1 c d2 f callee d3 g e d4 r d5 H1 H2 _ _ [<-|[]] _ _ _ [<-|[]].
      eapply shape_comp; [exact H1|]. eapply (shape_comp _ c); [|apply shape_id].
      eapply (shape_comp _ c); [apply shape_id|exact H2].
  Qed.

  Variable main : F.
  Local Notation valid := (vpath G P (nontop P) (holds_initially P (shpSeeds p main))).

  Lemma nt (v : heapValue) : v = INIT \/ v = BOT -> nontop P v.
  Proof. intros [->| ->] E; discriminate E. Qed.
  Local Notation any := (vpath G P (@anyval heapValue) (holds_initially P (shpSeeds p main))).

  Lemma calls_events n : (calls p name n InitializerFn = true /\ events p name n = [Init] /\ calls p name n ShutdownFn = false) \/
    (calls p name n InitializerFn = false /\ events p name n = [Done] /\ calls p name n ShutdownFn = true) \/
    (calls p name n InitializerFn = false /\ events p name n = [] /\ calls p name n ShutdownFn = false).
  Proof.
    unfold calls, calledFunction, events. destruct (code p n) as [| | | | | | | | |[] [|f fs] a|]; auto.
    unfold InitializerFn, ShutdownFn.
    destruct (String.eqb_spec (name f) "CRYPTO_secure_malloc_init") as [E|E]; [rewrite E; auto|].
    destruct (String.eqb (name f) "CRYPTO_secure_malloc_done"); auto.
  Qed.

  (** the facts and values of a history *)
  Definition meets (d : heapFact) (v : heapValue) (tr : list event) : Prop :=
    match d, v with
    | ZERO, BOT => True
    | INITIALIZED, INIT => In Init tr
    | INITIALIZED, BOT => shut tr
    | _, _ => False
    end.
  Lemma In_split_init tr : In Init tr -> exists b c, tr = b ++ Init :: c. Proof. apply in_split. Qed.
  Lemma shut_cons e tr : shut tr -> shut (e :: tr).
  Proof. intros (a & b & c & ->). now exists (e :: a), b, c. Qed.

  Lemma vpath_path K n d v : any (K, n, d, v) -> exists tr, path p name main K n tr /\ meets d v tr.
  Proof.
    enough (X : forall cf, any cf -> let '(K, n, d, v) := cf in exists tr, path p name main K n tr /\ meets d v tr)
      by (intros H; exact (X _ H)).
    induction 1 as [n' d' v' HI _|[[[K1 n1] d1] v1] K' n' d' v' _ IH ST _].
    - destruct HI as (facts & HI & HF). unfold shpSeeds in HI. destruct (entry p main) as [sp|] eqn:E; [|destruct HI].
      destruct HI as [[= <- <-]|[]]. exists []. split; [now apply pa_start|].
      destruct HF as [[[= <- <-]|[]]|(-> & -> & _)]; exact I.
    - destruct IH as (tr & PA & M). inversion ST; subst.
      + match goal with H : In _ (normalFF _ _ _ _) |- _ => destruct H as [<-|[]] end. exists tr. split; auto.
        eapply pa_next; eauto. intros b fs a E. match goal with H : isCallSite _ _ = false |- _ => cbn in H; unfold isCall in H; now rewrite E in H end.
      + match goal with H : isCallSite _ _ = true |- _ => cbn in H; unfold isCall in H; destruct (code p n1) eqn:C; try discriminate H end.
        match goal with H : In _ (ctrFF _ _ _ _) |- _ => cbn in H; rename H into I3 end.
        exists (events p name n1 ++ tr). split; [eapply pa_over; eauto|].
        unfold ctrFlow, idFlow in I3. cbn [IDESolverModel.apply ctrEF shpProblem]. unfold ctrEdge.
        destruct (calls_events n1) as [(C1 & EV & C2)|[(C1 & EV & C2)|(C1 & EV & C2)]]; rewrite C1 in I3; rewrite EV, C2;
          destruct d1, d'; cbn in I3 |- *; try (intuition discriminate); destruct v1; cbn in M |- *; auto; try contradiction;
          try (now apply shut_cons).
        apply In_split_init in M as (b & c & ->). now exists [], b, c.
      + match goal with H : sumFF _ _ _ = Some _ |- _ => discriminate H end.
      + match goal with H : In _ (callFF _ _ _ _) |- _ => destruct H as [<-|[]] end. exists tr. split; auto.
        match goal with H : In _ (getStartPointsOf _ _) |- _ => cbn in H; destruct (entry p callee) as [sp'|] eqn:E; [|destruct H]; destruct H as [->|[]] end.
        eapply pa_call; eauto.
      + match goal with H : In _ (retFF _ _ _ _ _ _) |- _ => destruct H as [<-|[]] end. exists tr. split; auto.
        match goal with H : isExitInst _ _ = true |- _ => cbn in H; destruct (code p n1) eqn:C; try discriminate H end.
        eapply pa_ret; eauto.
  Qed.

  Lemma path_vpath K n tr : path p name main K n tr ->
    forall d v, d = ZERO /\ v = BOT \/
                d = INITIALIZED /\ v = INIT /\ (exists b c, tr = b ++ Init :: c /\ ~ In Done b) \/
                d = INITIALIZED /\ v = BOT /\ shut tr -> valid (K, n, d, v).
  Proof.
    induction 1 as [sp E|K n n' tr PA IH NC I1|K n n' b fs a tr PA IH C I1|K n f sp tr PA IH I1 E|K c f n n' v0 tr PA IH C I1]; intros d v M.
    - apply vp_init.
      + exists [(ZERO, BOT)]. unfold shpSeeds. rewrite E. split; [now left|]. left.
        destruct M as [(-> & ->)|[(_ & _ & b & c & X & _)|(_ & _ & a & b & c & X)]]; [now left| |].
        * now destruct b. 
        * now destruct a.
      + apply nt. intuition.
    - eapply vp_step; [apply (IH d v M)| |apply nt; intuition].
      apply (es_normal G P) with (d' := d); cbn; auto. unfold isCall. destruct (code p n) eqn:Q; auto. now elim (NC direct fs args).
    - assert (ST : forall d d' v, In d' (ctrFlow p name n d) ->
              estep G P (K, n, d, v) (K, n', d', IDESolverModel.apply P (ctrEdge p name n d n' d') v)).
      { intros x x' y H. apply (es_ctr G P); auto. cbn. unfold isCall. now rewrite C. }
      assert (ZZ : In ZERO (ctrFlow p name n ZERO)) by (unfold ctrFlow, idFlow; destruct (calls _ _ _ _); cbn; auto).
      assert (II : In INITIALIZED (ctrFlow p name n INITIALIZED)) by (unfold ctrFlow, idFlow; destruct (calls _ _ _ _); cbn; auto).
      destruct M as [(-> & ->)|M].
      { eapply vp_step; [apply (IH ZERO BOT); auto|exact (ST _ _ BOT ZZ)|discriminate]. }
      assert (GO : forall v, valid (K, n, INITIALIZED, v) -> nontop P v -> calls p name n ShutdownFn = false -> valid (K, n', INITIALIZED, v)).
      { intros w V NTw CF. eapply vp_step; [exact V| |exact NTw]. pose proof (ST _ _ w II) as X. unfold ctrEdge in X. cbn [zeroH negb andb] in X.
        rewrite CF in X. exact X. }
      assert (GD : forall v, valid (K, n, INITIALIZED, v) -> calls p name n ShutdownFn = true -> valid (K, n', INITIALIZED, BOT)).
      { intros w V CF. eapply vp_step; [exact V| |discriminate]. pose proof (ST _ _ w II) as X. unfold ctrEdge in X. cbn [zeroH negb andb] in X.
        rewrite CF in X. exact X. }
      destruct (calls_events n) as [(C1 & EV & C2)|[(C1 & EV & C2)|(C1 & EV & C2)]]; rewrite EV in M; cbn [app] in M.
      + destruct M as [(-> & -> & _)|(-> & -> & a0 & b0 & c0 & X)].
        * eapply vp_step; [apply (IH ZERO BOT); auto| |discriminate]. refine (ST ZERO INITIALIZED BOT _). unfold ctrFlow. rewrite C1. cbn. auto.
        * destruct a0 as [|? a0]; [discriminate X|]. injection X as _ X. apply GO; auto; [|discriminate]. apply IH. right; right. repeat split. now exists a0, b0, c0.
      + destruct M as [(-> & -> & b0 & c0 & X & NI)|(-> & -> & a0 & b0 & c0 & X)].
        * destruct b0 as [|e b0]; [discriminate X|]. injection X as <- X. elim NI. now left.
        * destruct a0 as [|? a0]; injection X as X.
          -- assert (Y : exists b1 c1, tr = b1 ++ Init :: c1 /\ ~ In Done b1 \/ shut tr).
             { destruct (in_dec (fun x y : event => ltac:(decide equality)) Done b0) as [D|D].
               - exists [], []. right. apply in_split in D as (b1 & b2 & ->). exists b1, b2, c0. subst tr. rewrite <- app_assoc. reflexivity.
               - exists b0, c0. left. now subst. }
             destruct Y as (b1 & c1 & [Y|Y]).
             ++ apply (GD INIT); auto. apply IH. right; left. repeat split. eauto.
             ++ apply (GD BOT); auto. apply IH. right; right. auto.
          -- apply (GD BOT); auto. apply IH. right; right. repeat split. now exists a0, b0, c0.
      + assert (E : d = INITIALIZED) by intuition. subst d. apply GO; auto. apply nt; intuition.
    - eapply vp_step; [apply (IH d v M)| |apply nt; intuition].
      apply (es_call G P) with (d' := d); cbn; auto; [|rewrite E; now left].
      unfold calleesAt in I1. unfold isCall. destruct (code p n); auto; destruct I1.
    - eapply vp_step; [apply (IH d v M)| |apply nt; intuition].
      apply (es_ret G P) with (d' := d); cbn; auto; unfold isCall; now rewrite C.
  Qed.

  Hypothesis BN : called_by_name p name.
  (** executions have histories *)
  Theorem exec_path K n h : exec p name main (K, n, h) -> exists tr, path p name main K n tr /\
    match h with Never => True | On => In Init tr | Off => shut tr end.
  Proof.
    enough (X : forall c, exec p name main c -> exists tr, path p name main (fst (fst c)) (snd (fst c)) tr /\
      match snd c with Never => ~ In Init tr | On => exists b d, tr = b ++ Init :: d /\ ~ In Done b | Off => shut tr end).
    { intros H. destruct (X _ H) as (tr & PA & Y). exists tr. split; auto. cbn in Y. destruct h; auto. destruct Y as (b & d & -> & _).
      apply in_elt. }
    induction 1 as [sp E|c c' EX IH ST].
    - exists []. split; [now apply pa_start|intros []].
    - destruct ST as [K1 n1 n' h1 E NC I1|K1 n1 n' f h1 I1 E I2|K1 n1 f sp h1 I1 E|K1 c f n1 n' v h1 C I1]; cbn in *; destruct IH as (tr & PA & M).
      + exists tr. split; auto. eapply pa_next; eauto.
      + assert (C : exists b fs a, code p n1 = ICall b fs a) by (unfold calleesAt in I1; destruct (code p n1); try destruct I1; eauto).
        destruct C as (b & fs & a & C). exists (events p name n1 ++ tr). split; [eapply pa_over; eauto|]. unfold effect.
        destruct (String.eqb_spec (name f) "CRYPTO_secure_malloc_init") as [NI|NI].
        { destruct (BN n1 f I1 (or_introl NI)) as [args C']. exists [], tr. split; auto. unfold events. now rewrite C', NI. }
        destruct (String.eqb_spec (name f) "CRYPTO_secure_malloc_done") as [ND|ND].
        { destruct (BN n1 f I1 (or_intror ND)) as [args C']. unfold events. rewrite C', ND. cbn. destruct h1.
          - intros [X|X]; [discriminate|auto].
          - destruct M as (b1 & c1 & -> & _). now exists [], b1, c1.
          - now apply shut_cons. }
        assert (EV : events p name n1 = []).
        { unfold events. destruct (code p n1) as [| | | | | | | | |[] [|g gs] a'|] eqn:Q; auto.
          destruct (String.eqb_spec (name g) "CRYPTO_secure_malloc_init") as [N1|N1];
            [|destruct (String.eqb_spec (name g) "CRYPTO_secure_malloc_done") as [N2|N2]; auto].
          - destruct (BN n1 g) as [args C']; [unfold calleesAt; rewrite Q; now left|auto|].
            unfold calleesAt in I1. rewrite C' in I1. destruct I1 as [<-|[]]. contradiction.
          - destruct (BN n1 g) as [args C']; [unfold calleesAt; rewrite Q; now left|auto|].
            unfold calleesAt in I1. rewrite C' in I1. destruct I1 as [<-|[]]. contradiction. }
        rewrite EV. exact M.
      + exists tr. split; auto. eapply pa_call; eauto.
      + exists tr. split; auto. eapply pa_ret; eauto.
  Qed.
End P.
