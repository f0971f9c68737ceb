(** Proofs about InterMonoModel. *)
From Coq Require Import List Bool Arith NArith Lia.
From Verif Require Import Assoc CallStringModel CallStringProofs InterMonoModel InterMonoSpec.
Import ListNotations.

Lemma fold_inv {S X} (R : S -> Prop) (g : S -> X -> S) l : (forall s x, In x l -> R s -> R (g s x)) -> forall s, R s -> R (fold_left g l s).
Proof. induction l as [|a l IH]; cbn; intros G s Hs; auto. Qed.

Section P.
  Context {Nd M F : Type} `{EqDec Nd} `{EqDec F} (K : N) (zero : Nd) (c : icfg Nd F) (P : problem Nd M F).
  Implicit Types (A : list (Nd * list (list Nd * M))) (st : @state Nd M F).

  (** ** Entries *)
  Definition present (n : Nd) (x : list Nd) A : Prop := In x (akeys (rowOf n A)).

  Lemma rowOf_put (n n' : Nd) x m A : rowOf n' (put n x m A) = if eqb n' n then aset x m (rowOf n A) else rowOf n' A.
  Proof. unfold put, rowOf at 1, afindd. rewrite afind_aset. unfold eqb. destruct (eq_dec n' n); reflexivity. Qed.
  Lemma rowOf_touch (n n' : Nd) x A : n' <> n -> rowOf n' (touch P n x A) = rowOf n' A.
  Proof.
    intros E. unfold touch. destruct (afind x (rowOf n A)); auto. rewrite rowOf_put. apply eqb_false in E. now rewrite E.
  Qed.
  Lemma present_put n x m A n' x' : present n' x' (put n x m A) <-> (n' = n /\ x' = x) \/ present n' x' A.
  Proof.
    unfold present. rewrite rowOf_put. destruct (eqb n' n) eqn:E.
    - apply eqb_eq in E as ->. rewrite In_akeys_aset. tauto.
    - apply eqb_false in E. tauto.
  Qed.
  Lemma present_touch n x A n' x' : present n' x' (touch P n x A) <-> (n' = n /\ x' = x) \/ present n' x' A.
  Proof.
    unfold touch. destruct (afind x (rowOf n A)) as [m|] eqn:E.
    - split; auto. intros [[-> ->]|]; auto. unfold present. eapply afind_Some_key; eauto.
    - apply present_put.
  Qed.

  Lemma touch_present n x A : present n x A -> touch P n x A = A.
  Proof. intros Hp. unfold touch. match goal with |- match ?e with _ => _ end = _ => destruct e eqn:E end; auto. apply afind_None in E. contradiction. Qed.

  (** ** Nothing gets lost, and contexts stay in a set closed under push and pop *)
  Context (Q : list Nd -> Prop) (Q0 : Q []) (Qpush : forall s x, isCallSite c s = true -> Q x -> Q (push_back K s x))
    (Qpop : forall x, Q x -> Q (snd (pop_back zero x))).
  Record ext (s0 s : @state Nd M F) : Prop := {
    ext_present : forall n x, present n x (tab s0) -> present n x (tab s);
    ext_good : forall n x, present n x (tab s) -> Q x;
    ext_wl : incl (worklist s0) (worklist s);
    ext_added : incl (added s0) (added s) }.
  Definition good A : Prop := forall n x, present n x A -> Q x.
  Lemma ext_refl st : good (tab st) -> ext st st.
  Proof. intros G. constructor; auto using incl_refl. Qed.
  Lemma ext_trans a b d : ext a b -> ext b d -> ext a d.
  Proof. intros [] []. constructor; eauto using incl_tran. Qed.
  Lemma ext_put n x m s0 st : Q x -> ext s0 st -> ext s0 (mkState (put n x m (tab st)) (worklist st) (added st)).
  Proof.
    intros Hx []. constructor; cbn; auto; intros n' x'; rewrite present_put; [auto|intros [[_ ->]|]; eauto].
  Qed.
  Lemma ext_touch n x s0 st : Q x -> ext s0 st -> ext s0 (mkState (touch P n x (tab st)) (worklist st) (added st)).
  Proof.
    intros Hx []. constructor; cbn; auto; intros n' x'; rewrite present_touch; [auto|intros [[_ ->]|]; eauto].
  Qed.
  Lemma ext_more l l' s0 st : ext s0 st -> ext s0 (mkState (tab st) (l ++ worklist st ++ l') (added st)).
  Proof. intros []. constructor; cbn; auto. intros e He. apply in_or_app. right. apply in_or_app. auto. Qed.

  Lemma initEdges_inv (R : list (Nd * list (list Nd * M)) -> Prop) es A :
    (forall n A, R A -> R (put n [] (allTop P) A)) -> R A -> R (initEdges P es A).
  Proof.
    intros Hp HA. unfold initEdges.
    assert (G : R (fold_left (fun A e => put (fst e) [] (allTop P) A) es A)) by (apply fold_inv; auto).
    destruct (rev es); auto.
  Qed.
  Lemma ext_init es s0 st : ext s0 st -> ext s0 (mkState (initEdges P es (tab st)) (worklist st) (added st)).
  Proof.
    intros E. apply (initEdges_inv (fun A => ext s0 (mkState A (worklist st) (added st)))).
    - intros n A EA. now apply (ext_put n [] (allTop P) s0 (mkState A (worklist st) (added st))).
    - destruct st. exact E.
  Qed.
  Lemma initEdges_present es A s d : In (s, d) es -> present s [] (initEdges P es A).
  Proof.
    intros Hin. unfold initEdges.
    assert (G : forall l B, In (s, d) l \/ present s [] B -> present s [] (fold_left (fun A e => put (fst e) [] (allTop P) A) l B)).
    { induction l as [|e l IH]; cbn; intros B Hl; [destruct Hl as [[]|]; auto|]. apply IH. rewrite present_put.
      destruct Hl as [[->|]|]; auto. }
    destruct (rev es) as [|e l]; [apply G; auto|]. apply present_put. right. apply G. auto.
  Qed.

  Lemma ext_update s0 s d x out st : Q x -> ext s0 st -> ext s0 (update c P s d x out st).
  Proof.
    intros Hx E. unfold update. pose proof (ext_touch d x s0 st Hx E) as T. destruct (equal_to P out _); auto.
    pose proof (ext_put d x out s0 _ Hx T) as U. apply (ext_more [] (again c s d)) in U. exact U.
  Qed.
  Lemma ext_normal s0 s d st : ext s0 st -> ext s0 (processNormal c P s d st).
  Proof.
    intros E. unfold processNormal. apply (fold_inv (ext s0)); auto. intros s' x Hx E'.
    assert (Qx : Q x) by (apply (ext_good _ _ E s); exact Hx).
    assert (G : ext s0 (mkState (snd (normalOut c P (tab s') s d x)) (worklist s') (added s'))).
    { unfold normalOut. destruct (isBranchTarget c s d); [|destruct s'; exact E'].
      apply (fold_inv (fun oA => ext s0 (mkState (snd oA) (worklist s') (added s')))); [|destruct s'; exact E'].
      intros [o A] p _ EA. destruct (eqb p s); auto. exact (ext_touch p x s0 _ Qx EA). }
    destruct (normalOut c P (tab s') s d x) as [out A]. now apply ext_update.
  Qed.
  Lemma ext_call s0 s d st : isCallSite c s = true -> ext s0 st -> ext s0 (processCall K c P s d st).
  Proof.
    intros Cs E. unfold processCall. destruct (isIntraEdge c s d); apply (fold_inv (ext s0)); auto; intros s' x Hx E';
      assert (Qx : Q x) by (apply (ext_good _ _ E s); exact Hx); apply ext_update; auto.
  Qed.
  Lemma ext_exit s0 s d st : ext s0 st -> ext s0 (processExit zero c P s d st).
  Proof.
    intros E. unfold processExit. apply (fold_inv (fun a => ext s0 (snd a))); auto. intros [outs s'] x Hx E'.
    assert (Qx : Q x) by (apply (ext_good _ _ E s); exact Hx). unfold exitCtx.
    assert (Qx' : Q (snd (match x with [] => (callersOf c (functionOf c s), []) | _ => let '(cs, x') := pop_back zero x in ([cs], x') end))).
    { specialize (Qpop x Qx). destruct x as [|a x]; auto. }
    destruct (match x with [] => _ | _ => _ end) as [sites x']. cbn [snd] in *.
    apply (fold_inv (ext s0)); auto. intros s1 r _ E1. pose proof (ext_touch r x' s0 s1 Qx' E1) as T.
    destruct (equal_to P _ _); auto. set (m := insertAll P (insertAll P (emptyM P) (get P r x' (touch P r x' (tab s1)))) _).
    exact (ext_put d x' m s0 _ Qx' (ext_put r x' m s0 _ Qx' T)).
  Qed.
  Lemma ext_addCallee s0 src st f : ext s0 st -> ext s0 (addCallee c P src st f).
  Proof.
    intros E. unfold addCallee. pose proof (ext_init (allEdges c f) s0 st E) as T.
    apply (ext_more (allEdges c f) (map (pair src) (startPoints c f) ++ flat_map (fun e => map (pair e) (returnSites c src)) (exitPoints c f))) in T.
    destruct T. constructor; cbn; auto. cbn in ext_added0. intros g Hg. apply in_or_app. auto.
  Qed.
  Lemma ext_addCallees s0 src fs : forall st, ext s0 st -> ext s0 (addCallees c P src fs st).
  Proof.
    induction fs as [|f fs IH]; cbn; intros st E; auto. destruct (mem f (added st)); auto. apply IH. now apply ext_addCallee.
  Qed.
  Lemma ext_step s d wl st : good (tab st) -> ext (mkState (tab st) wl (added st)) (step K zero c P s d wl st).
  Proof.
    intros G. unfold step. assert (E : ext (mkState (tab st) wl (added st)) (mkState (tab st) wl (added st))) by now apply ext_refl.
    destruct (isCallSite c s) eqn:Cs; [now apply ext_call; auto; apply ext_addCallees|].
    destruct (isExitInst c s); [now apply ext_exit|now apply ext_normal].
  Qed.
  Lemma good_initialize : good (tab (initialize c P)).
  Proof.
    unfold initialize. apply (fold_inv (fun st => good (tab st))); [|intros n x []]. intros st sd _ G. unfold addSeed. cbn.
    intros n x. rewrite present_put. intros [[_ ->]|Hp]; auto.
    apply (ext_good st (mkState (initEdges P (allEdges c (functionOf c (fst sd))) (tab st)) (worklist st) (added st))) with (n := n); auto.
    apply ext_init. now apply ext_refl.
  Qed.
  Lemma good_loop fuel : forall st st', good (tab st) -> loop K zero c P fuel st = Some st' -> good (tab st').
  Proof.
    induction fuel as [|fuel IH]; cbn; intros st st' G Hl.
    - destruct (worklist st) as [|[s d] wl]; [|discriminate]. now injection Hl as <-.
    - destruct (worklist st) as [|[s d] wl]; [now injection Hl as <-|]. apply (IH (step K zero c P s d wl st)); auto.
      intros n x Hp. exact (ext_good _ _ (ext_step s d wl st G) n x Hp).
  Qed.

  (** ** Callees *)
  Definition seedFn (f : F) : Prop := exists n x, In (n, x) (initialSeeds P) /\ functionOf c n = f.
  Definition covered (seeds : list (Nd * M)) st : Prop := forall f s d,
    (exists n x, In (n, x) seeds /\ functionOf c n = f) \/ In f (added st) -> In (s, d) (allEdges c f) ->
    present s [] (tab st) /\ (isCallSite c s = true -> In (s, d) (worklist st) \/ incl (calleesOf c s) (added st)).
  Lemma covered_ext sds st st' : ext st st' -> added st' = added st -> covered sds st -> covered sds st'.
  Proof.
    intros E Ha C f s d Hf He. rewrite Ha in *. destruct (C f s d Hf He) as [A B]. split; [now apply (ext_present _ _ E)|].
    intros Cs. destruct (B Cs) as [|]; auto. left. now apply (ext_wl _ _ E).
  Qed.
  Lemma added_update s d x out st : added (update c P s d x out st) = added st.
  Proof. unfold update. destruct (equal_to P out _); reflexivity. Qed.
  Lemma added_call s d st : added (processCall K c P s d st) = added st.
  Proof.
    unfold processCall. destruct (isIntraEdge c s d); apply (fold_inv (fun s' => added s' = added st)); auto; intros s' x _ <-; apply added_update.
  Qed.
  Lemma added_normal s d st : added (processNormal c P s d st) = added st.
  Proof.
    unfold processNormal. apply (fold_inv (fun s' => added s' = added st)); auto. intros s' x _ <-.
    destruct (normalOut c P (tab s') s d x). rewrite added_update; reflexivity.
  Qed.
  Lemma added_exit s d st : added (processExit zero c P s d st) = added st.
  Proof.
    unfold processExit. apply (fold_inv (fun a => added (snd a) = added st)); auto. intros [outs s'] x _ Ha. unfold exitCtx.
    destruct (match x with [] => _ | _ => _ end) as [sites x']. cbn [snd] in *. apply (fold_inv (fun s' => added s' = added st)); auto.
    intros s1 r _ <-. destruct (equal_to P _ _); reflexivity.
  Qed.
  Context (Single : forall s, isCallSite c s = true -> length (calleesOf c s) <= 1).
  (** handling a call site covers its callee *)
  Lemma covered_addCallees sds s d wl st : good (tab st) -> isCallSite c s = true ->
    covered sds (mkState (tab st) ((s, d) :: wl) (added st)) ->
    covered sds (addCallees c P s (calleesOf c s) (mkState (tab st) wl (added st))).
  Proof.
    intros G Cs C. specialize (Single s Cs).
    assert (Done : covered sds (mkState (tab st) wl (added st)) \/ ~ incl (calleesOf c s) (added st)).
    { destruct (calleesOf c s) as [|f l] eqn:E.
      - left. intros f a b Hf Hab. destruct (C f a b Hf Hab) as [A B]. split; auto. intros Ca. destruct (B Ca) as [[Heq|]|]; auto.
        injection Heq as -> ->. right. rewrite E. intros x [].
      - destruct l; [|cbn in Single; lia]. destruct (in_dec eq_dec f (added st)) as [Hin|Hn]; [left|right; intros Hi; apply Hn, Hi; cbn; auto].
        intros g a b Hg Hab. destruct (C g a b Hg Hab) as [A B]. split; auto. intros Ca. destruct (B Ca) as [[Heq|]|]; auto.
        injection Heq as -> ->. right. rewrite E. intros x [<-|[]]. auto. }
    destruct (calleesOf c s) as [|f l] eqn:E.
    - cbn. destruct Done as [|Hn]; auto. exfalso. apply Hn. intros x [].
    - destruct l; [|cbn in Single; lia]. cbn [addCallees added]. destruct (mem f (added st)) eqn:Hm.
      + destruct Done as [|Hn]; auto. exfalso. apply Hn. intros x [<-|[]]. now apply mem_true.
      + set (st0 := mkState (tab st) wl (added st)) in *.
        pose proof (ext_addCallee st0 s st0 f (ext_refl st0 G)) as X. intros g a b Hg Hab.
        assert (Old : (exists n x, In (n, x) sds /\ functionOf c n = g) \/ In g (added st) \/ g = f).
        { destruct Hg as [|Hg]; auto. cbn in Hg. apply in_app_iff in Hg as [|[<-|[]]]; auto. }
        assert (New : g = f -> present a [] (tab (addCallee c P s st0 f)) /\ In (a, b) (worklist (addCallee c P s st0 f))).
        { intros ->. split; [cbn; eapply initEdges_present; eauto|]. cbn. apply in_or_app. auto. }
        destruct Old as [Old|[Old|Old]].
        * destruct (C g a b (or_introl Old) Hab) as [A B]. split; [now apply (ext_present _ _ X)|]. intros Ca.
          destruct (B Ca) as [[Heq|Hw]|Hi]; [|left; now apply (ext_wl _ _ X)|right; intros y Hy; apply (ext_added _ _ X); cbn; auto].
          injection Heq as -> ->. right. rewrite E. intros y [<-|[]]. cbn. apply in_or_app. cbn. auto.
        * destruct (C g a b (or_intror Old) Hab) as [A B]. split; [now apply (ext_present _ _ X)|]. intros Ca.
          destruct (B Ca) as [[Heq|Hw]|Hi]; [|left; now apply (ext_wl _ _ X)|right; intros y Hy; apply (ext_added _ _ X); cbn; auto].
          injection Heq as -> ->. right. rewrite E. intros y [<-|[]]. cbn. apply in_or_app. cbn. auto.
        * destruct (New Old) as [A B]. split; auto.
  Qed.
  Lemma covered_step sds s d wl st : good (tab st) -> worklist st = (s, d) :: wl -> covered sds st -> covered sds (step K zero c P s d wl st).
  Proof.
    intros G Hw C. unfold step. set (st0 := mkState (tab st) wl (added st)).
    assert (C' : covered sds (mkState (tab st) ((s, d) :: wl) (added st))) by (rewrite <- Hw; destruct st; exact C).
    assert (E0 : ext st0 st0) by now apply ext_refl.
    destruct (isCallSite c s) eqn:Cs.
    - pose proof (covered_addCallees sds s d wl st G Cs C') as CA. fold st0 in CA.
      apply (covered_ext sds (addCallees c P s (calleesOf c s) st0)); auto; [|apply added_call].
      apply ext_call; auto. apply ext_refl. intros n x. apply (ext_good st0). now apply ext_addCallees.
    - assert (C0 : covered sds st0).
      { intros f a b Hf Hab. destruct (C' f a b Hf Hab) as [A B]. split; auto. intros Ca. destruct (B Ca) as [[Heq|]|]; auto. congruence. }
      destruct (isExitInst c s).
      + apply (covered_ext sds st0); auto; [now apply ext_exit|apply added_exit].
      + apply (covered_ext sds st0); auto; [now apply ext_normal|apply added_normal].
  Qed.
  Lemma covered_initialize : covered (initialSeeds P) (initialize c P).
  Proof.
    unfold initialize.
    assert (G : forall l done st, good (tab st) -> added st = [] ->
              (forall f s d, (exists n x, In (n, x) done /\ functionOf c n = f) -> In (s, d) (allEdges c f) ->
                 present s [] (tab st) /\ In (s, d) (worklist st)) ->
              let st' := fold_left (addSeed c P) l st in
              (forall f s d, (exists n x, In (n, x) (done ++ l) /\ functionOf c n = f) -> In (s, d) (allEdges c f) ->
                 present s [] (tab st') /\ In (s, d) (worklist st')) /\ added st' = []).
    { induction l as [|[n0 x0] l IH]; cbn; intros done st Gd Ha D; [rewrite app_nil_r; auto|].
      specialize (IH (done ++ [(n0, x0)]) (addSeed c P st (n0, x0))). rewrite <- app_assoc in IH. cbn in IH. apply IH; auto.
      - intros n x. cbn. rewrite present_put. intros [[_ ->]|Hp]; auto.
        eapply ext_good; [apply ext_init, ext_refl; exact Gd|exact Hp].
      - intros f s d (n & x & Hin & Hf) He. apply in_app_iff in Hin as [Hin|[Heq|[]]].
        + destruct (D f s d (ex_intro _ n (ex_intro _ x (conj Hin Hf))) He) as [A B].
          split; cbn; [|apply in_or_app; auto]. apply present_put. right.
          apply (ext_present st (mkState (initEdges P (allEdges c (functionOf c n0)) (tab st)) (worklist st) (added st))); auto.
          now apply ext_init, ext_refl.
        + injection Heq as -> ->. cbn. subst f. split; [|apply in_or_app; auto]. apply present_put. right.
          eapply initEdges_present; eauto. }
    destruct (G (initialSeeds P) [] (mkState [] [] [])) as [A B]; auto; [intros n x []|intros f s d (n & x & [] & _)|].
    intros f s d [Hf|Hf] He; [destruct (A f s d Hf He); auto|]. rewrite B in Hf. destruct Hf.
  Qed.
  Lemma covered_loop fuel : forall st st', good (tab st) -> covered (initialSeeds P) st -> loop K zero c P fuel st = Some st' ->
    covered (initialSeeds P) st' /\ worklist st' = [].
  Proof.
    induction fuel as [|fuel IH]; cbn; intros st st' G C Hl.
    - destruct (worklist st) as [|[s d] wl] eqn:E; [|discriminate]. injection Hl as <-. auto.
    - destruct (worklist st) as [|[s d] wl] eqn:E; [injection Hl as <-; auto|]. apply (IH (step K zero c P s d wl st)); auto.
      + intros n x Hp. exact (ext_good _ _ (ext_step s d wl st G) n x Hp).
      + now apply covered_step.
  Qed.
End P.
