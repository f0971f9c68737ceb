(** Proofs about OTFModel. *)
From Coq Require Import String List Bool Arith Lia Relations.
From Verif Require Import Assoc ResolverModel ResolverSpec ResolverProofs OTFModel OTFSpec.
Import ListNotations.

Section P.
  Variable kind : nat -> vkind.
  Variable fun_ : nat -> func.
  Notation isFunction := (isFunction kind).
  Notation isAggregate := (isAggregate kind).
  Notation consider := (consider kind fun_).
  Notation operandStep := (operandStep kind fun_).
  Notation operands := (operands kind).
  Notation initAggregate := (initAggregate kind).
  Notation search := (search kind fun_).

  Definition ok (c : call) (f : nat) : Prop := function kind f /\ isConsistentCall c (fun_ f) = true.
  Lemma in_consider c v s f : In f (consider c v s) <-> In f s \/ (f = v /\ ok c f).
  Proof.
    unfold OTFModel.consider, ok, OTFModel.isFunction, function. destruct (kind v) eqn:E; cbn;
      try (split; [auto|intros [I|(-> & X & _)]; [exact I|congruence]]).
    destruct (isConsistentCall c (fun_ v)) eqn:F.
    - rewrite In_sinsert. split; [intros [->|I]; auto|intros [I|(-> & _)]; auto].
    - split; [auto|intros [I|(-> & _ & X)]; [exact I|congruence]].
  Qed.
  (** the operands of aggregates, one step *)
  Definition direct (a f : nat) : Prop :=
    exists o, In o (operands a) /\ (o = f \/ exists b ops, kind o = KExpr true true b (f :: ops)).
  Definition child (a b : nat) : Prop :=
    exists o, In o (operands a) /\ isAggregate b = true /\ (o = b \/ initializedBy kind o b).
  Lemma in_init v b : In b (initAggregate v) <-> initializedBy kind v b /\ isAggregate b = true.
  Proof.
    unfold OTFModel.initAggregate, initializedBy. destruct (kind v) as [|n [i|]|x|x y z w|x y| |] eqn:E;
      try (split; [intros []|intros [(m & X) _]; discriminate]).
    destruct (isAggregate i) eqn:A.
    - split; [intros [<-|[]]; eauto|]. intros [(m & [= _ ->]) _]. left. reflexivity.
    - split; [intros []|]. intros [(m & [= _ ->]) X]. congruence.
  Qed.
  Lemma step_ok c o wl s : let '(wl', s') := operandStep c (wl, s) o in
    (forall b, In b wl' <-> In b wl \/ (isAggregate b = true /\ (o = b \/ initializedBy kind o b))) /\
    (forall f, In f s' <-> In f s \/ (ok c f /\ (o = f \/ exists b ops, kind o = KExpr true true b (f :: ops)))).
  Proof.
    assert (Agg : kind o <> KFunction -> forall f, ok c f -> o <> f) by (intros N f [X _] ->; apply N; exact X).
    assert (N1 : forall A : Prop, (forall b, isAggregate b = true /\ (o = b \/ initializedBy kind o b) -> False) -> forall b : nat, A <-> A \/ (isAggregate b = true /\ (o = b \/ initializedBy kind o b))).
    { intros A H b. split; [auto|]. intros [X|X]; [exact X|destruct (H b X)]. }
    assert (N2 : forall A : Prop, (forall f, ok c f /\ (o = f \/ exists b ops, kind o = KExpr true true b (f :: ops)) -> False) -> forall f : nat, A <-> A \/ (ok c f /\ (o = f \/ exists b ops, kind o = KExpr true true b (f :: ops)))).
    { intros A H b. split; [auto|]. intros [X|X]; [exact X|destruct (H b X)]. }
    assert (No : (forall a ops, kind o <> KAggregate a ops) -> (forall n i, kind o <> KGlobal n i) -> forall b, isAggregate b = true /\ (o = b \/ initializedBy kind o b) -> False).
    { intros A B b [X [<-|(n & Y)]]; [|exact (B _ _ Y)]. unfold OTFModel.isAggregate in X. destruct (kind o) eqn:E; try discriminate. exact (A _ _ eq_refl). }
    unfold OTFModel.operandStep. destruct (kind o) as [|n i|x|x y z w|x y| |] eqn:E.
    - split; [intros b; apply N1, No; congruence|]. intros f. rewrite in_consider. split.
      + intros [I|[-> X]]; auto.
      + intros [I|(X & [->|(b & ops & Y)])]; [auto|auto|congruence].
    - split; [|intros f; apply N2; intros g (X & [Y|(b & ops & Y)]); [apply (Agg ltac:(congruence) g X Y)|congruence]].
      intros b. rewrite in_app_iff, in_init. split.
      + intros [[X Y]|X]; auto.
      + intros [X|[X [<-|Y]]]; [auto| |auto]. unfold OTFModel.isAggregate in X. rewrite E in X. discriminate.
    - split; [intros b; apply N1, No; congruence|intros f; apply N2; intros g (X & [Y|(b & ops & Y)]); [apply (Agg ltac:(congruence) g X Y)|congruence]].
    - assert (Rest : ~ (x = true /\ y = true /\ w <> []) -> forall f, ok c f /\ (o = f \/ exists b ops, KExpr x y z w = KExpr true true b (f :: ops)) -> False).
      { intros H f (X & [Y|(b & ops & [= -> -> _ ->])]); [apply (Agg ltac:(congruence) f X Y)|]. apply H. repeat split. discriminate. }
      destruct x; [destruct y; [destruct w as [|f w]|]|].
      + split; [intros b; apply N1, No; congruence|intros g; apply N2, Rest; intros (_ & _ & X); apply X; reflexivity].
      + split; [intros b; apply N1, No; congruence|]. intros g. rewrite in_consider. split.
        * intros [I|[-> X]]; [auto|]. right. split; [exact X|]. right. eauto.
        * intros [I|(X & [Y|(b & ops & [= _ -> _])])]; [auto|destruct (Agg ltac:(congruence) g X Y)|auto].
      + split; [intros b; apply N1, No; congruence|intros g; apply N2, Rest; intros (_ & X & _); discriminate].
      + split; [intros b; apply N1, No; congruence|intros g; apply N2, Rest; intros (X & _); discriminate].
    - split; [|intros f; apply N2; intros g (X & [Y|(b & ops & Y)]); [apply (Agg ltac:(congruence) g X Y)|congruence]].
      intros b. cbn. split.
      + intros [<-|X]; [|auto]. right. split; [unfold OTFModel.isAggregate; rewrite E; reflexivity|auto].
      + intros [X|[X [Y|(n & Y)]]]; [auto|auto|congruence].
    - split; [intros b; apply N1, No; congruence|intros f; apply N2; intros g (X & [Y|(b & ops & Y)]); [apply (Agg ltac:(congruence) g X Y)|congruence]].
    - split; [intros b; apply N1, No; congruence|intros f; apply N2; intros g (X & [Y|(b & ops & Y)]); [apply (Agg ltac:(congruence) g X Y)|congruence]].
  Qed.
  Lemma steps_ok c os : forall wl s, let '(wl', s') := fold_left (operandStep c) os (wl, s) in
    (forall b, In b wl' <-> In b wl \/ exists o, In o os /\ isAggregate b = true /\ (o = b \/ initializedBy kind o b)) /\
    (forall f, In f s' <-> In f s \/ exists o, In o os /\ ok c f /\ (o = f \/ exists b ops, kind o = KExpr true true b (f :: ops))).
  Proof.
    induction os as [|o os IH]; intros wl s; cbn [fold_left].
    - split; intros x; split; auto; intros [X|(o & [] & _)]; exact X.
    - pose proof (step_ok c o wl s) as S. destruct (operandStep c (wl, s) o) as [wl1 s1]. destruct S as [Sw Ss].
      specialize (IH wl1 s1). destruct (fold_left (operandStep c) os (wl1, s1)) as [wl2 s2]. destruct IH as [Iw Is]. split; intros x.
      + rewrite Iw, Sw. cbn. split.
        * intros [[X|X]|(o' & X & Y)]; [auto| |]; right; [exists o|exists o']; auto.
        * intros [X|(o' & [<-|X] & Y)]; [auto|auto|]. right. exists o'. auto.
      + rewrite Is, Ss. cbn. split.
        * intros [[X|X]|(o' & X & Y)]; [auto| |]; right; [exists o|exists o']; auto.
        * intros [X|(o' & [<-|X] & Y)]; [auto|auto|]. right. exists o'. auto.
  Qed.

  Notation reach := (clos_refl_trans_1n nat child).
  Section L.
    Variable c : call.
    Variable starts s0 : list nat.
    Definition inv (wl visited s : list nat) : Prop :=
      (forall x, In x wl \/ In x visited -> exists r, In r starts /\ reach r x) /\
      (forall r, In r starts -> In r wl \/ In r visited) /\
      (forall a b, In a visited -> child a b -> In b wl \/ In b visited) /\
      (forall f, In f s <-> In f s0 \/ (ok c f /\ exists a, In a visited /\ direct a f)).
    Lemma reach_snoc r a b : reach r a -> child a b -> reach r b.
    Proof.
      intros R C. apply clos_rt_rt1n. eapply rt_trans; [apply clos_rt1n_rt; exact R|]. apply rt_step. exact C.
    Qed.
    Lemma inv_start : inv starts [] s0.
    Proof.
      split; [|split; [|split]].
      - intros x [X|[]]. exists x. split; [exact X|]. apply rt1n_refl.
      - auto.
      - intros a b [].
      - intros f. split; [auto|]. intros [X|(_ & a & [] & _)]. exact X.
    Qed.
    Lemma search_ok fuel : forall wl visited s R, inv wl visited s -> search fuel c wl visited s = Some R ->
      forall f, In f R <-> In f s0 \/ (ok c f /\ exists r a, In r starts /\ reach r a /\ direct a f).
    Proof.
      induction fuel as [|fuel IH]; [discriminate|]. intros wl visited s R (I1 & I2 & I3 & I4) E. cbn [OTFModel.search] in E.
      destruct wl as [|a wl].
      - injection E as <-. intros f. rewrite I4. split; (intros [X|(X & Y)]; [auto|right; split; [exact X|]]).
        + destruct Y as (a & V & D). destruct (I1 a (or_intror V)) as (r & Ir & Rr). eauto.
        + destruct Y as (r & a & Ir & Rr & D). exists a. split; [|exact D]. destruct (I2 r Ir) as [[]|V]. clear Ir D.
          induction Rr as [x|x y z C Rr IHr]; [exact V|]. apply IHr. destruct (I3 x y V C) as [[]|V']. exact V'.
      - destruct (mem a visited) eqn:M.
        + apply mem_true in M. apply (IH wl visited s R); [|exact E]. split; [|split; [|split]].
          * intros x [X|X]; apply I1; [left; right; exact X|right; exact X].
          * intros r Ir. destruct (I2 r Ir) as [[<-|X]|X]; auto.
          * intros x y V C. destruct (I3 x y V C) as [[<-|X]|X]; auto.
          * exact I4.
        + pose proof (steps_ok c (operands a) wl s) as S. destruct (fold_left (operandStep c) (operands a) (wl, s)) as [wl' s']. destruct S as [Sw Ss].
          apply (IH wl' (a :: visited) s' R); [|exact E].
          assert (Ch : forall b, In b wl' <-> In b wl \/ child a b) by (intros b; rewrite Sw; unfold child; reflexivity).
          split; [|split; [|split]].
          * intros x [X|[<-|X]].
            -- apply Ch in X. destruct X as [X|X]; [apply I1; left; right; exact X|].
               destruct (I1 a (or_introl (or_introl eq_refl))) as (r & Ir & Rr). exists r. split; [exact Ir|]. exact (reach_snoc r a x Rr X).
            -- apply I1. left. left. reflexivity.
            -- apply I1. right. exact X.
          * intros r Ir. destruct (I2 r Ir) as [[<-|X]|X]; [right; left; reflexivity|left; apply Ch; auto|right; right; exact X].
          * intros x y [<-|V] C; [left; apply Ch; auto|]. destruct (I3 x y V C) as [[<-|X]|X]; [right; left; reflexivity|left; apply Ch; auto|right; right; exact X].
          * intros f. rewrite Ss, I4. split.
            -- intros [[X|(X & b & V & D)]|(o & Io & X & D)]; [auto| |]; right; split; auto; [exists b|exists a]; split; cbn; auto. exists o. auto.
            -- intros [X|(X & b & [<-|V] & D)]; [auto| |].
               ++ destruct D as (o & Io & D). right. exists o. auto.
               ++ left. right. eauto.
    Qed.
  End L.

  Lemma holds_reach a f : isAggregate a = true -> (holds kind a f <-> function kind f /\ exists b, reach a b /\ direct b f).
  Proof.
    assert (Op : forall a k ops, kind a = KAggregate k ops -> operands a = ops) by (intros x k ops E; unfold OTFModel.operands; rewrite E; reflexivity).
    assert (Hd : forall a f, holds kind a f -> isAggregate a = true).
    { intros x g H. unfold OTFModel.isAggregate. destruct H as [? k ? ? E|? k ? ? ? ? ? E|? k ? ? ? E|? k ? ? ? ? E]; rewrite E; reflexivity. }
    intros A. split.
    - induction 1 as [a k ops f E I F|a k ops e b ops' f E I X F|a k ops b f E I H IH|a k ops g b f E I G H IH].
      + split; [exact F|]. exists a. split; [apply rt1n_refl|]. exists f. rewrite (Op a k ops E). auto.
      + split; [exact F|]. exists a. split; [apply rt1n_refl|]. exists e. rewrite (Op a k ops E). split; [exact I|]. right. eauto.
      + destruct (IH (Hd _ _ H)) as (F & x & R & D). split; [exact F|]. exists x. split; [|exact D]. eapply Relation_Operators.rt1n_trans; [|exact R].
        exists b. rewrite (Op a k ops E). split; [exact I|]. split; [exact (Hd _ _ H)|auto].
      + destruct (IH (Hd _ _ H)) as (F & x & R & D). split; [exact F|]. exists x. split; [|exact D]. eapply Relation_Operators.rt1n_trans; [|exact R].
        exists g. rewrite (Op a k ops E). split; [exact I|]. split; [exact (Hd _ _ H)|auto].
    - intros (F & b & R & D).
      assert (Ag : forall x o, In o (operands x) -> exists k ops, kind x = KAggregate k ops /\ In o ops).
      { intros x o I. unfold OTFModel.operands in I. destruct (kind x) as [|? ?|?|? ? ? ?|k ops| |]; try destruct I; eauto. }
      clear A. induction R as [x|x y z (o & I & Ay & C) R IH].
      + destruct D as (o & I & D). destruct (Ag x o I) as (k & ops & E & I'). destruct D as [->|(b & ops' & X)]; [exact (holds_element kind x k ops f E I' F)|].
        exact (holds_cast kind x k ops o b ops' f E I' X F).
      + specialize (IH D). destruct (Ag x o I) as (k & ops & E & I'). destruct C as [->|C]; [exact (holds_inner kind x k ops y f E I' IH)|].
        exact (holds_global kind x k ops o y f E I' C IH).
  Qed.
  Lemma holds_aggregate a f : holds kind a f -> isAggregate a = true.
  Proof. intros H. unfold OTFModel.isAggregate. destruct H as [? k ? ? E|? k ? ? ? ? ? E|? k ? ? ? E|? k ? ? ? ? E]; rewrite E; reflexivity. Qed.

  Lemma in_globals p g : In g (globals kind p) <-> (exists n i, kind g = KGlobal n i) /\ (p = g \/ exists x y z ops, kind p = KExpr x y z ops /\ In g ops).
  Proof.
    unfold globals. destruct (kind p) as [|n i|x|x y z w|x y| |] eqn:E;
      try (split; [intros []|]; intros [(n' & i' & X) [->|(a & b & d & ops & Y & _)]]; congruence).
    - split; [intros [<-|[]]; split; eauto|]. intros [_ [->|(a & b & d & ops & Y & _)]]; [left; reflexivity|discriminate].
    - rewrite filter_In. split.
      + intros [I X]. destruct (kind g) as [|n i|?|? ? ? ?|? ?| |]; try discriminate. split; [eauto|]. right. exists x, y, z, w. auto.
      + intros [(n & i & X) [->|(a & b & d & ops & [= <- <- <- <-] & I)]]; [congruence|]. rewrite X. auto.
  Qed.
  Lemma targets_ok fuel c aliases : forall s R, pointerTargets kind fun_ fuel c aliases s = Some R ->
    forall f, In f R <-> In f s \/ (ok c f /\ exists p, In p aliases /\ leadsTo kind p f).
  Proof.
    induction aliases as [|p aliases IH]; intros s R E f; cbn [pointerTargets] in E.
    - injection E as <-. split; [auto|]. intros [X|(_ & p & [] & _)]. exact X.
    - cbv zeta in E. set (st := rev (flat_map initAggregate (globals kind p))) in E.
      destruct (search fuel c st [] (consider c p s)) as [s1|] eqn:E1; [|discriminate].
      rewrite (IH s1 R E f). rewrite (search_ok c st (consider c p s) fuel st [] (consider c p s) s1 (inv_start c st _) E1 f). rewrite in_consider.
      assert (St : forall b, In b st <-> exists g, (p = g \/ exists x y z ops, kind p = KExpr x y z ops /\ In g ops) /\ initializedBy kind g b /\ isAggregate b = true).
      { intros b. unfold st. rewrite <- in_rev, in_flat_map. split.
        - intros (g & G & B). apply in_globals in G. apply in_init in B. exists g. tauto.
        - intros (g & G & B). exists g. split; [|apply in_init; exact B]. apply in_globals. split; [|exact G]. destruct B as [(n & B) _]. eauto. }
      assert (Le : ok c f -> (leadsTo kind p f <-> p = f \/ exists r a, In r st /\ reach r a /\ direct a f)).
      { intros [F _]. unfold leadsTo. split; (intros [X|X]; [auto|right]).
        - destruct X as (g & b & G & B & H). pose proof (holds_aggregate b f H) as A. apply (holds_reach b f A) in H. destruct H as (_ & a & Ra & D).
          exists b, a. split; [|auto]. apply St. exists g. auto.
        - destruct X as (b & a & I & Ra & D). apply St in I. destruct I as (g & G & B & A). exists g, b. split; [exact G|split; [exact B|]].
          apply (holds_reach b f A). split; [exact F|]. eauto. }
      split.
      + intros [[[X|[-> X]]|(X & Y)]|(X & q & I & Y)]; [auto| | |].
        * right. split; [exact X|]. exists p. split; [left; reflexivity|left; reflexivity].
        * right. split; [exact X|]. exists p. split; [left; reflexivity|]. apply (Le X). auto.
        * right. split; [exact X|]. exists q. split; [right; exact I|exact Y].
      + intros [X|(X & q & [<-|I] & Y)]; [auto| |].
        * apply (Le X) in Y. destruct Y as [->|Y]; auto.
        * right. eauto.
  Qed.

  (** ** Termination *)
  Fixpoint weight (U visited : list nat) : nat :=
    match U with [] => 0 | a :: U => (if mem a visited then 0 else length (operands a)) + weight U visited end.
  Lemma step_len c o wl s : length (fst (operandStep c (wl, s) o)) <= S (length wl).
  Proof.
    assert (Ini : length (initAggregate o) <= 1).
    { unfold OTFModel.initAggregate. destruct (kind o) as [|n' [j|]|x|x y z w|x y| |]; auto. destruct (isAggregate j); auto. }
    unfold OTFModel.operandStep. destruct (kind o) as [|n i|x|[] [] z [|? ?]|x y| |]; cbn [fst length]; try rewrite app_length; lia.
  Qed.
  Lemma steps_len c os : forall wl s, length (fst (fold_left (operandStep c) os (wl, s))) <= length wl + length os.
  Proof.
    induction os as [|o os IH]; intros wl s; cbn [fold_left length]; [cbn; lia|].
    pose proof (step_len c o wl s) as S. destruct (operandStep c (wl, s) o) as [wl1 s1]. cbn [fst] in S. pose proof (IH wl1 s1). lia.
  Qed.
  Lemma weight_visit U a visited : In a U -> ~ In a visited -> weight U (a :: visited) + length (operands a) <= weight U visited.
  Proof.
    assert (Mono : forall V, weight V (a :: visited) <= weight V visited).
    { induction V as [|x V IH]; cbn [weight]; [lia|]. destruct (mem x visited) eqn:M.
      - assert (mem x (a :: visited) = true) as -> by (apply mem_true; right; apply mem_true; exact M). exact IH.
      - destruct (mem x (a :: visited)); lia. }
    intros I N. induction U as [|x U IH]; [destruct I|]. cbn [weight].
    destruct (Nat.eq_dec x a) as [->|D].
    - assert (mem a (a :: visited) = true) as -> by (apply mem_true; left; reflexivity).
      assert (mem a visited = false) as -> by (destruct (mem a visited) eqn:M; [apply mem_true in M; contradiction|reflexivity]).
      specialize (Mono U). lia.
    - destruct I as [->|I]; [contradiction|]. specialize (IH I).
      assert (mem x (a :: visited) = mem x visited) as ->.
      { destruct (mem x visited) eqn:M; [apply mem_true; right; apply mem_true; exact M|].
        destruct (mem x (a :: visited)) eqn:M2; [|reflexivity]. apply mem_true in M2. destruct M2 as [->|M2]; [contradiction|]. apply mem_true in M2. congruence. }
      lia.
  Qed.
  Lemma search_ends U c fuel : (forall a, isAggregate a = true -> In a U) -> forall wl visited s,
    (forall a, In a wl -> isAggregate a = true) -> length wl + weight U visited < fuel -> search fuel c wl visited s <> None.
  Proof.
    intros HU. induction fuel as [|fuel IH]; [lia|]. intros wl visited s Ag L. cbn [OTFModel.search]. destruct wl as [|a wl]; [discriminate|].
    cbn [length] in L. destruct (mem a visited) eqn:M.
    - apply IH; [intros x X; apply Ag; right; exact X|lia].
    - pose proof (steps_len c (operands a) wl s) as Sl. pose proof (steps_ok c (operands a) wl s) as So.
      assert (N : ~ In a visited) by (intros X; apply mem_true in X; congruence).
      pose proof (weight_visit U a visited (HU a (Ag a (or_introl eq_refl))) N) as W.
      destruct (fold_left (operandStep c) (operands a) (wl, s)) as [wl' s']. cbn [fst] in Sl. destruct So as [Sw _]. apply IH; [|lia].
      intros x X. apply Sw in X. destruct X as [X|(o & _ & X & _)]; [apply Ag; right; exact X|exact X].
  Qed.
  Lemma targets_end U c aliases : (forall a, isAggregate a = true -> In a U) -> exists fuel, forall fuel', fuel <= fuel' ->
    forall s, pointerTargets kind fun_ fuel' c aliases s <> None.
  Proof.
    intros HU. induction aliases as [|p aliases (n & IH)].
    - exists 0. intros. discriminate.
    - exists (n + S (length (rev (flat_map initAggregate (globals kind p))) + weight U [])). intros fuel' L s. cbn [pointerTargets]. cbv zeta.
      destruct (search fuel' c (rev (flat_map initAggregate (globals kind p))) [] (consider c p s)) as [s1|] eqn:E; [apply IH; lia|].
      exfalso. revert E. apply (search_ends U); [exact HU| |lia]. intros a I. apply in_rev, in_flat_map in I. destruct I as (g & _ & I). apply in_init in I. tauto.
  Qed.

  (** ** Virtual calls *)
  Lemma vfVector_tables ops ts : Forall2 (fun o t => exists h1 h2, kind o = KAggregate AArray (h1 :: h2 :: t)) ops ts ->
    vfVector kind ops = Some (map (vfEntry kind) (concat ts)).
  Proof.
    induction 1 as [|o t ops ts (h1 & h2 & E) H IH]; [reflexivity|]. cbn. rewrite E, IH, map_app. reflexivity.
  Qed.
  Lemma vfEntry_iff t i f : nth_error (map (vfEntry kind) t) i = Some (Some f) <-> entryIs kind t i f.
  Proof.
    rewrite nth_error_map. unfold entryIs. destruct (nth_error t i) as [v|]; cbn.
    - split.
      + intros [= E]. unfold vfEntry in E. destruct (kind v) as [|? ?|?|p c [|] [|o ops]|? ?| |] eqn:K; try discriminate.
        exists v, c, o, ops. split; [reflexivity|]. split; [eauto|]. unfold OTFModel.isFunction in E. unfold function.
        destruct (kind o) as [|? ?|a|? ? ? ?|? ?| |] eqn:Ko; try discriminate; try (rewrite Ko in E; try discriminate).
        * injection E as <-. auto.
        * destruct (kind a) eqn:Ka; try discriminate. injection E as <-. auto.
      + intros (v' & c & o & ops & [= <-] & (p & K) & Ho & F). unfold vfEntry, OTFModel.isFunction. rewrite K. unfold function in F.
        destruct Ho as [->|Ho]; [rewrite F; cbn; rewrite F; reflexivity|]. rewrite Ho, F. reflexivity.
    - split; [discriminate|]. intros (v & c & o & ops & X & _). discriminate.
  Qed.
End P.
