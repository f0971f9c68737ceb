(** The C runtime model: proofs. *)
From Coq Require Import String List Bool Arith Sorted Lia.
From Verif Require Import Assoc GlobalModelModel GlobalModelSpec.
Import ListNotations.

Lemma no_elements (A : Type) (l : list A) : (forall x, In x l -> False) -> l = [].
Proof. destruct l; auto. intros H. destruct (H a). now left. Qed.

(** ** Multimaps *)
Section Multi.
  Variable before : nat -> nat -> bool.
  Hypothesis irrefl : forall a, before a a = false.
  Hypothesis trans : forall a b c, before a b = true -> before b c = true -> before a c = true.
  Hypothesis total : forall a b, before a b = false -> before b a = false -> a = b.
  Notation sorted := (StronglySorted (fun x y : nat * string => before (fst y) (fst x) = false)).

  Lemma memplace_forall (P : nat * string -> Prop) k v l : Forall P l -> P (k, v) -> Forall P (memplace before k v l).
  Proof.
    induction 1 as [|[k' v'] l H1 H2 IH]; intros H; cbn; [auto|]. destruct (before k k'); auto.
  Qed.
  Lemma memplace_sorted k v l : sorted l -> sorted (memplace before k v l).
  Proof.
    induction 1 as [|[k' v'] l S IH Ha]; cbn; [repeat constructor|]. destruct (before k k') eqn:E.
    - constructor; [now constructor|]. constructor; cbn.
      + destruct (before k' k) eqn:E'; auto. rewrite <- (irrefl k). symmetry. eauto.
      + eapply Forall_impl; [|exact Ha]. intros [k2 v2] H. cbn in *. destruct (before k2 k) eqn:E2; auto.
        assert (X : before k2 k' = true) by eauto. congruence.
    - constructor; auto. apply memplace_forall; auto.
  Qed.
  Lemma memplace_filter k v l : sorted l -> forall j,
    filter (fun x => fst x =? j) (memplace before k v l) = filter (fun x => fst x =? j) l ++ (if k =? j then [(k, v)] else []).
  Proof.
    intros S j. induction S as [|[k' v'] l S IH Ha]; cbn [memplace]; [cbn; destruct (k =? j); reflexivity|].
    destruct (before k k') eqn:E.
    - cbn [filter fst]. destruct (Nat.eqb_spec k j) as [->|N]; [|now rewrite app_nil_r].
      assert (K : filter (fun x => fst x =? j) ((k', v') :: l) = []).
      { apply no_elements. intros [k2 v2] Hin. apply filter_In in Hin. destruct Hin as [Hin Ek]. cbn in Ek. apply Nat.eqb_eq in Ek. subst k2.
        destruct Hin as [[= -> ->]|Hin]; [rewrite irrefl in E; discriminate|].
        rewrite Forall_forall in Ha. specialize (Ha _ Hin). cbn in Ha. congruence. }
      cbn [filter fst] in K. now rewrite K.
    - cbn [filter fst]. destruct (k' =? j); cbn; now rewrite IH.
  Qed.
  Lemma insert_spec ds : forall into, sorted into ->
    sorted (insertGlobals before into ds) /\
    forall j, filter (fun x => fst x =? j) (insertGlobals before into ds) = filter (fun x => fst x =? j) into ++ filter (fun x => fst x =? j) (listed ds).
  Proof.
    induction ds as [|d ds IH]; intros into S; cbn [insertGlobals fold_left]; [split; auto; intros; cbn; now rewrite app_nil_r|].
    destruct d as [|[p|] [f|]]; try apply (IH into S). destruct (IH (memplace before p f into) (memplace_sorted _ _ _ S)) as [A B]. split; [exact A|].
    intros j. unfold insertGlobals in B. rewrite B, memplace_filter by assumption. rewrite <- app_assoc. f_equal. cbn. destruct (p =? j); reflexivity.
  Qed.
End Multi.

Lemma lt_order l : inOrder lt (listed l) (insertGlobals Nat.ltb [] l).
Proof.
  destruct (insert_spec Nat.ltb Nat.ltb_irrefl (fun a b c H1 H2 => proj2 (Nat.ltb_lt a c) (Nat.lt_trans a b c (proj1 (Nat.ltb_lt _ _) H1) (proj1 (Nat.ltb_lt _ _) H2)))
    l [] (SSorted_nil _)) as [A B].
  split; [exact B|]. clear B. induction A as [|a l' A IH Ha]; constructor; auto. eapply Forall_impl; [|exact Ha]. intros b Hb. apply Nat.ltb_ge in Hb. lia.
Qed.
Lemma gt_order l : inOrder gt (listed l) (insertGlobals greater [] l).
Proof.
  destruct (insert_spec greater Nat.ltb_irrefl (fun a b c H1 H2 => proj2 (Nat.ltb_lt c a) (Nat.lt_trans c b a (proj1 (Nat.ltb_lt _ _) H2) (proj1 (Nat.ltb_lt _ _) H1)))
    l [] (SSorted_nil _)) as [A B].
  split; [exact B|]. clear B. induction A as [|a l' A IH Ha]; constructor; auto. eapply Forall_impl; [|exact Ha]. intros b Hb. apply Nat.ltb_ge in Hb. lia.
Qed.
Lemma inOrder_in before l l' : inOrder before l l' -> forall x, In x l' <-> In x l.
Proof.
  intros [H _] x. specialize (H (fst x)). split; intros Hin.
  - assert (K : In x (filter (fun y => fst y =? fst x) l')) by (apply filter_In; split; auto; apply Nat.eqb_refl). rewrite H in K. apply filter_In in K. tauto.
  - assert (K : In x (filter (fun y => fst y =? fst x) l)) by (apply filter_In; split; auto; apply Nat.eqb_refl). rewrite <- H in K. apply filter_In in K. tauto.
Qed.
Lemma memplace_last k l : k = 0 -> forall v, memplace greater k v l = l ++ [(k, v)].
Proof. intros -> v. induction l as [|[k' v'] l IH]; cbn [memplace app]; auto. unfold greater at 1. cbn [Nat.ltb Nat.leb]. now rewrite IH. Qed.

(** ** Strings *)
Lemma prefix_iff sub : forall s, prefix sub s = true <-> exists b, s = append sub b.
Proof.
  induction sub as [|c sub IH]; intros s; [split; [intros _; exists s; reflexivity|destruct s; reflexivity]|]. destruct s as [|c' s]; cbn; [split; [discriminate|intros [b E]; discriminate E]|].
  destruct (Ascii.ascii_dec c c') as [<-|N]; [rewrite IH|]; split.
  - intros [b ->]. eauto.
  - intros [b [= ->]]. eauto.
  - discriminate.
  - intros [b [= E _]]. congruence.
Qed.
Lemma contains_iff sub : forall s, contains s sub = true <-> exists a b, s = append a (append sub b).
Proof.
  induction s as [|c s IH]; cbn [contains]; rewrite orb_true_iff, prefix_iff.
  - split; [intros [[b E]|E]; [exists EmptyString; eauto|discriminate E]|]. intros [a [b E]]. destruct a; [|discriminate]. left. eauto.
  - rewrite IH. split.
    + intros [[b E]|[a [b E]]]; [exists EmptyString; eauto|]. exists (String c a), b. cbn. now rewrite E.
    + intros [a [b E]]. destruct a as [|c' a]; [left; eauto|]. right. injection E as -> E. eauto.
Qed.

(** ** Registered destructors *)
Definition ofKind (global : bool) (us : list user) : list (string * nat) :=
  flat_map (fun u => match u with
                     | Registers (Some d) o c => if eqb (contains c "__cxx_global_var_init") global then [(d, o)] else []
                     | _ => [] end) us.
Lemma collect_eq m : collectRegisteredDtorsForModule m = ofKind true (mUsers m) ++ ofKind false (mUsers m).
Proof.
  unfold collectRegisteredDtorsForModule.
  assert (K : forall us a b, fold_left (fun acc u =>
    match u with
    | Registers (Some d) o caller => if contains caller "__cxx_global_var_init" then (fst acc ++ [(d, o)], snd acc) else (fst acc, snd acc ++ [(d, o)])
    | _ => acc
    end) us (a, b) = (a ++ ofKind true us, b ++ ofKind false us)).
  { induction us as [|u us IH]; intros a b; cbn [fold_left ofKind flat_map]; [now rewrite !app_nil_r|].
    destruct u as [|[d|] o c]; try apply IH. cbn [fst snd]. destruct (contains c _); cbn; rewrite IH; cbn; now rewrite <- ?app_assoc. }
  now rewrite K.
Qed.
Lemma ofKind_registered (g : bool) us : registered (fun c : string => if g then inInitializer c else ~ inInitializer c) us (ofKind g us).
Proof.
  induction us as [|u us IH]; cbn; [constructor|]. destruct u as [|[d|] o c]; try (apply reg_skip; [intros d0 o0 c0 E; discriminate E|exact IH]).
  pose proof (contains_iff "__cxx_global_var_init" c) as C. destruct (contains c _); cbn.
  - destruct g; cbn; [apply reg_take; [now apply C|exact IH]|]. apply reg_skip; [|exact IH]. intros d' o' c' [= <- <- <-] N. apply N. now apply C.
  - destruct g; cbn; [apply reg_skip; [|exact IH]; intros d' o' c' [= <- <- <-] N; apply C in N; discriminate|].
    apply reg_take; [intros N; apply C in N; discriminate|exact IH].
Qed.
Lemma registered_det P us : forall l l', registered P us l -> registered P us l' -> l = l'.
Proof.
  intros l l' H. revert l'. induction H as [|d o c us l Hp H IH|u us l Hn H IH]; intros l' H'; inversion H'; subst; auto.
  - f_equal; auto.
  - exfalso. eapply H2; eauto.
  - exfalso. eapply Hn; eauto.
Qed.
Lemma ofKind_in g us d o : In (d, o) (ofKind g us) -> exists c, In (Registers (Some d) o c) us.
Proof.
  unfold ofKind. rewrite in_flat_map. intros [u [Hu H]]. destruct u as [|[d'|] o' c]; try destruct H. destruct (eqb _ _); [|destruct H]. destruct H as [[= <- <-]|[]]. eauto.
Qed.

(** ** Executions *)
Lemma exec_det F sel bs l t : exec F sel bs l t -> forall t', exec F sel bs l t' -> t = t'.
Proof.
  induction 1; intros t' H'; inversion H'; subst; auto; try congruence.
  - f_equal; auto.
  - match goal with A : blocksOf F f = _, B : blocksOf F f = _ |- _ => rewrite A in B; injection B as <- <- end. f_equal; auto.
  - match goal with A : nth_error bs n = _, B : nth_error bs n = _ |- _ => rewrite A in B; injection B as <- end. auto.
  - match goal with A : nth_error _ _ = Some b, B : nth_error _ _ = Some _ |- _ => rewrite A in B; injection B as <- end. auto.
Qed.
Lemma execution_det F sel f t t' : execution F sel f t -> execution F sel f t' -> t = t'.
Proof. intros [b [bs [E H]]] [b' [bs' [E' H']]]. rewrite E in E'. injection E' as <- <-. eapply exec_det; eauto. Qed.
(** calls of functions of the program *)
Lemma exec_calls F sel bs (es : list event) l t : (forall f a, In (f, a) es -> blocksOf F f = [] /\ f <> UserEntrySelectorName) ->
  exec F sel bs l t -> exec F sel bs (map (fun e => ICall (fst e) (snd e)) es ++ l) (es ++ t).
Proof.
  intros H Hl. induction es as [|[f a] es IH]; cbn; auto. destruct (H f a (or_introl eq_refl)) as [A B].
  apply x_program; auto. apply IH. intros f' a' Hin. apply (H f' a'). now right.
Qed.
Lemma exec_only F sel bs (es : list event) : (forall f a, In (f, a) es -> blocksOf F f = [] /\ f <> UserEntrySelectorName) ->
  exec F sel bs (map (fun e => ICall (fst e) (snd e)) es ++ [IRet]) es.
Proof. intros H. pose proof (exec_calls F sel bs es [IRet] [] H (x_ret _ _ _ _)) as X. now rewrite app_nil_r in X. Qed.
Lemma callAll_ok m l : (forall p f, In (p, f) l -> mArgs m f = 0) -> callAll m l = Some (map (fun e => ICall (fst e) (snd e)) (callsOf l)).
Proof.
  induction l as [|[p f] l IH]; intros H; cbn; auto. rewrite (H p f) by now left. cbn. rewrite IH; auto. intros p' f' Hin. apply (H p' f'). now right.
Qed.
Lemma dtorCalls_ok m l : (forall d o, In (d, o) l -> mArgs m d = 1) ->
  dtorCalls m l = Some (map (fun e => ICall (fst e) (snd e)) (destroys m (rev l)) ++ [IRet]).
Proof.
  unfold destroys. rewrite rev_involutive. induction l as [|[d o] l IH]; intros H; cbn; auto. rewrite (H d o) by now left. cbn.
  rewrite IH by (intros d' o' Hin; apply (H d' o'); now right). destruct (mFit m d o); reflexivity.
Qed.
Lemma blocks_add F f bs g : blocksOf (addBlocks F f bs) g = if string_dec g f then blocksOf F g ++ bs else blocksOf F g.
Proof.
  unfold addBlocks. unfold blocksOf at 1. rewrite afind_aset. unfold EqDec_fname. destruct (eq_dec g f) as [->|N]; destruct (string_dec _ _); congruence || reflexivity.
Qed.

(** ** The model *)
Section Built.
  Variable m : module.
  Variable entries : list string.
  Hypothesis wf : wellFormed m entries.
  Notation caller := (dtorCallerName m).
  Notation cs := (collectGlobalCtors m).
  Notation ds := (collectGlobalDtors m).
  Definition regs : list (string * nat) := ofKind true (mUsers m) ++ ofKind false (mUsers m).
  (** with the function that calls the registered destructors *)
  Definition allDtors : list (nat * string) := ds ++ match regs with [] => [] | _ => [(0, caller)] end.

  Lemma caller_names : caller <> ModelName /\ caller <> DtorModelName /\ caller <> UserEntrySelectorName.
  Proof. unfold dtorCallerName. cbn. repeat split; discriminate. Qed.
  Lemma ctor_ok p f : In (p, f) cs -> ~ made m f /\ mArgs m f = 0.
  Proof. intros H. apply (inOrder_in _ _ _ (lt_order (mCtors m))) in H. destruct wf as [A _]. eauto. Qed.
  Lemma dtor_ok p f : In (p, f) ds -> ~ made m f /\ mArgs m f = 0.
  Proof. intros H. apply (inOrder_in _ _ _ (gt_order (mDtors m))) in H. destruct wf as [_ [A _]]. eauto. Qed.
  Lemma reg_ok d o : In (d, o) regs -> ~ made m d /\ mArgs m d = 1.
  Proof.
    unfold regs. intros H. apply in_app_or in H. destruct wf as [_ [_ [_ [A _]]]]. destruct H as [H|H]; apply ofKind_in in H; destruct H as [c H]; eauto.
  Qed.
  Lemma entry_ok e : In e entries -> ~ made m e.
  Proof. destruct wf as [_ [_ [_ [_ A]]]]. apply A. Qed.

  (** the functions, without those called *)
  Definition callerBlocks : list block :=
    match regs with [] => [] | _ => [map (fun e => ICall (fst e) (snd e)) (destroys m regs) ++ [IRet]] end.
  Lemma registered_built : exists F1, collectRegisteredDtors m [] ds = Some (F1, allDtors) /\
    forall f, blocksOf F1 f = if string_dec f caller then callerBlocks else [].
  Proof.
    unfold collectRegisteredDtors, allDtors, callerBlocks. rewrite collect_eq. fold regs. pose proof reg_ok as R. destruct regs as [|r rs] eqn:Er.
    - exists []. rewrite app_nil_r. split; auto. intros f. destruct (string_dec f caller); reflexivity.
    - unfold createDtorCallerForModule. rewrite dtorCalls_ok by (intros d o Hin; apply in_rev in Hin; apply (R d o Hin)). rewrite rev_involutive.
      rewrite memplace_last by reflexivity. eexists. split; [reflexivity|]. intros f. rewrite blocks_add. destruct (string_dec f caller); reflexivity.
  Qed.
  Lemma all_args p f : In (p, f) allDtors -> mArgs m f = 0.
  Proof.
    unfold allDtors. intros H. apply in_app_or in H. destruct H as [H|H]; [now apply (dtor_ok p f)|].
    destruct regs; [destruct H|]. destruct H as [[= _ <-]|[]]. destruct wf as [_ [_ [A _]]]. exact A.
  Qed.
  Definition ready (F : functions) : Prop :=
    (forall f, ~ made m f -> blocksOf F f = []) /\ blocksOf F caller = callerBlocks.
  Lemma run_dtors F sel bs l t : ready F -> exec F sel bs l t ->
    exec F sel bs (map (fun e => ICall (fst e) (snd e)) (callsOf allDtors) ++ l) (callsOf ds ++ destroys m regs ++ t).
  Proof.
    intros [Hp Hc] Hl. unfold allDtors, callsOf. rewrite map_app, map_app, <- app_assoc. apply exec_calls.
    - intros f a Hin. apply in_map_iff in Hin. destruct Hin as [[p g] [[= <- <-] Hin]]. destruct (dtor_ok p g Hin) as [A _]. split; [now apply Hp|]. intros E. apply A. unfold made. auto.
    - pose proof reg_ok as R. unfold callerBlocks in Hc. destruct regs as [|r rs] eqn:Er; [exact Hl|]. cbn [map app fst snd].
      apply (x_made F sel bs caller [] l _ [] _ t Hc); [apply caller_names| |exact Hl].
      apply exec_only.
      intros f a Hin. unfold destroys in Hin. apply in_flat_map in Hin. destruct Hin as [[d o] [Hin Ha]]. apply in_rev in Hin. destruct (R d o Hin) as [A _].
      assert (f = d) by (cbn in Ha; destruct (mFit m d o); cbn in Ha; intuition congruence). subst f. split; [now apply Hp|]. intros E. apply A. unfold made. auto.
  Qed.
  Lemma dtors_built F1 : (forall f, blocksOf F1 f = if string_dec f caller then callerBlocks else []) ->
    exists F2 cleanup, buildDtorsModel m F1 allDtors = Some (F2, cleanup) /\ blocksOf F2 ModelName = [] /\ ready F2 /\
    forall F, ready F -> (forall f, f <> ModelName -> blocksOf F f = blocksOf F2 f) ->
      forall sel bs l t, exec F sel bs l t -> exec F sel bs (ICall cleanup [] :: l) (callsOf ds ++ destroys m regs ++ t).
  Proof.
    intros H1. assert (R1 : ready F1).
    { split; [|rewrite H1; destruct (string_dec _ _); congruence]. intros f Nf. rewrite H1. destruct (string_dec f caller) as [->|]; auto. destruct Nf. unfold made, dtorCallerName. auto. }
    assert (K : length allDtors = 1 \/ buildDtorsModel m F1 allDtors =
        Some (addBlocks F1 DtorModelName [map (fun e => ICall (fst e) (snd e)) (callsOf allDtors) ++ [IRet]], DtorModelName)).
    { unfold buildDtorsModel. rewrite (callAll_ok m allDtors all_args). destruct allDtors as [|[p f] [|x xs]]; auto. }
    destruct K as [K|K].
    - destruct allDtors as [|[p f] [|x xs]] eqn:E; try discriminate. exists F1, f. split; [reflexivity|].
      split; [rewrite H1; destruct (string_dec _ _) as [X|]; auto; symmetry in X; destruct (proj1 caller_names X)|]. split; [exact R1|].
      intros F RF _ sel bs l t Hl. pose proof (run_dtors F sel bs l t RF Hl) as X. rewrite E in X. exact X.
    - rewrite K. eexists _, _. split; [reflexivity|]. split; [rewrite blocks_add; cbn; rewrite H1; destruct (string_dec _ _) as [X|]; auto; symmetry in X; destruct (proj1 caller_names X)|]. split.
      { split.
        - intros f Nf. rewrite blocks_add. destruct (string_dec f DtorModelName) as [->|]; [destruct Nf; unfold made; auto|now apply R1].
        - rewrite blocks_add. destruct (string_dec caller DtorModelName) as [X|]; [destruct (proj1 (proj2 caller_names) X)|apply R1]. }
      intros F RF Eq sel bs l t Hl. rewrite app_assoc.
      assert (B : blocksOf F DtorModelName = [map (fun e => ICall (fst e) (snd e)) (callsOf allDtors) ++ [IRet]]).
      { rewrite Eq by discriminate. rewrite blocks_add. destruct (string_dec _ _) as [_|X]; [|congruence]. rewrite H1. destruct (string_dec _ _) as [X|]; auto. symmetry in X. destruct (proj1 (proj2 caller_names) X). }
      apply (x_made F sel bs DtorModelName [] l _ [] _ t B); [discriminate| |exact Hl].
      pose proof (run_dtors F sel _ [IRet] [] RF (x_ret F sel [map (fun e => ICall (fst e) (snd e)) (callsOf allDtors) ++ [IRet]] [])) as X. now rewrite app_nil_r in X.
  Qed.

  (** what is called for an entry point *)
  Definition entryEvents (e : string) : list event :=
    match mArgs m e with 0 => [(e, [])] | 2 => if String.eqb e "main" then [(e, [Param 0; Param 1])] else [] | _ => [] end.
  Definition trace (e : string) : list event :=
    callsOf cs ++ entryEvents e ++ (if String.eqb e "main" then callsOf ds ++ destroys m regs else []).
  Lemma callUEntry_eq cleanup e : callUEntry m cleanup e =
    map (fun e => ICall (fst e) (snd e)) (entryEvents e) ++ (if String.eqb e "main" then [ICall cleanup []] else []).
  Proof. unfold callUEntry, entryEvents. destruct (mArgs m e) as [|[|[|n]]]; cbn; try reflexivity. destruct (String.eqb e "main"); reflexivity. Qed.
  Lemma entry_runs F sel bs cleanup e l t : ready F -> In e entries ->
    (forall l t, exec F sel bs l t -> exec F sel bs (ICall cleanup [] :: l) (callsOf ds ++ destroys m regs ++ t)) ->
    exec F sel bs l t ->
    exec F sel bs (callUEntry m cleanup e ++ l) (entryEvents e ++ (if String.eqb e "main" then callsOf ds ++ destroys m regs else []) ++ t).
  Proof.
    intros [Hp _] Hin Hc Hl. rewrite callUEntry_eq, <- app_assoc. apply exec_calls.
    - intros f a Hf. assert (f = e).
      { unfold entryEvents in Hf. destruct (mArgs m e) as [|[|[|n]]]; cbn in Hf; try tauto; [|destruct (String.eqb e "main"); cbn in Hf]; intuition congruence. }
      subst f. pose proof (entry_ok e Hin) as A. split; [now apply Hp|]. intros E. apply A. unfold made. auto.
    - destruct (String.eqb e "main"); cbn; [|exact Hl]. rewrite <- app_assoc. now apply Hc.
  Qed.
  Lemma ctors_run F sel bs l t : ready F -> exec F sel bs l t -> exec F sel bs (map (fun e => ICall (fst e) (snd e)) (callsOf cs) ++ l) (callsOf cs ++ t).
  Proof.
    intros [Hp _] Hl. apply exec_calls; auto. intros f a Hin. apply in_map_iff in Hin. destruct Hin as [[p g] [[= <- <-] Hin]].
    destruct (ctor_ok p g Hin) as [A _]. split; [now apply Hp|]. intros E. apply A. unfold made. auto.
  Qed.
  Lemma cases_find n sel l : sel < length l -> afind sel (cases n l) = Some (n + 3 + sel).
  Proof.
    intros L. unfold cases. assert (K : forall k len, k <= sel < k + len -> afind sel (map (fun i => (i, n + 3 + i)) (seq k len)) = Some (n + 3 + sel)).
    { intros k len. revert k. induction len as [|len IH]; intros k Hk; [lia|]. cbn. destruct (eq_dec sel k) as [->|N]; auto. apply IH. lia. }
    apply K. lia.
  Qed.
  Lemma cases_none n sel l : length l <= sel -> afind sel (cases n l) = None.
  Proof.
    intros L. unfold cases. assert (K : forall k len, k + len <= sel -> afind sel (map (fun i => (i, n + 3 + i)) (seq k len)) = None).
    { intros k len. revert k. induction len as [|len IH]; intros k Hk; auto. cbn. destruct (eq_dec sel k) as [->|N]; [lia|]. apply IH. lia. }
    apply K. lia.
  Qed.
  Lemma ready_model F2 bs : ready F2 -> ready (addBlocks F2 ModelName bs).
  Proof.
    intros [A B]. split.
    - intros f Nf. rewrite blocks_add. destruct (string_dec f ModelName) as [->|]; [destruct Nf; unfold made; auto|now apply A].
    - rewrite blocks_add. destruct (string_dec _ _) as [X|]; [destruct (proj1 caller_names X)|exact B].
  Qed.
  Lemma model_built : entries <> [] -> exists F, buildModel m [] entries = Some F /\
    (forall sel e, selects entries sel e -> execution F sel ModelName (trace e)) /\
    (1 < length entries -> forall sel, length entries <= sel -> forall t, ~ execution F sel ModelName t).
  Proof.
    intros Ne. destruct registered_built as [F1 [E1 H1]]. destruct (dtors_built F1 H1) as [F2 [cleanup [E2 [N2 [R2 X2]]]]].
    unfold buildModel. rewrite E1, E2. rewrite (callAll_ok m cs (fun p f H => proj2 (ctor_ok p f H))). rewrite N2. cbn [length].
    destruct entries as [|e es] eqn:Ee; [congruence|]. rewrite <- Ee in *. destruct es as [|e2 es].
    - rewrite Ee. cbv iota. eexists. split; [reflexivity|]. split; [|cbn; lia].
      intros sel e' [[= <-]|[L _]]; [|cbn in L; lia].
      set (F := addBlocks F2 ModelName _). assert (RF : ready F) by now apply ready_model.
      eexists _, []. split; [unfold F; rewrite blocks_add, N2; destruct (string_dec _ _); [reflexivity|congruence]|].
      unfold trace. rewrite <- (app_nil_r (if String.eqb e "main" then _ else _)). apply ctors_run; [exact RF|]. apply entry_runs; [exact RF|rewrite Ee; now left| |constructor].
      intros l t. apply X2; auto. intros f Nf. unfold F. rewrite blocks_add. destruct (string_dec f ModelName); congruence.
    - eexists. split; [reflexivity|].
      set (F := addBlocks F2 ModelName _). assert (RF : ready F) by now apply ready_model.
      assert (Bl : blocksOf F ModelName = (map (fun e => ICall (fst e) (snd e)) (callsOf cs) ++ [ICall UserEntrySelectorName []; ISwitch (cases 0 entries) 1]) :: switchBlocks m cleanup 0 entries).
      { unfold F. rewrite blocks_add, N2. destruct (string_dec _ _); [reflexivity|congruence]. }
      split.
      + intros sel e' [X|[_ Hs]]; [rewrite Ee in X; discriminate|]. eexists _, _. split; [exact Bl|]. unfold trace.
        apply ctors_run; [exact RF|]. apply x_selector. eapply x_switch; [reflexivity| |].
        * rewrite cases_find by (apply nth_error_Some; congruence). cbn. apply map_nth_error. exact Hs.
        * rewrite <- (app_nil_r (if String.eqb e' "main" then _ else _)). apply entry_runs; [exact RF|eapply nth_error_In; exact Hs| |].
          -- intros l t. apply X2; auto. intros f Nf. unfold F. rewrite blocks_add. destruct (string_dec f ModelName); congruence.
          -- apply x_br with (b := [IRet]); [reflexivity|constructor].
      + intros _ sel L t [b [bs [Eb Hx]]]. rewrite Bl in Eb. injection Eb as <- <-.
        assert (K : forall l t, exec F sel ((map (fun e => ICall (fst e) (snd e)) (callsOf cs) ++ [ICall UserEntrySelectorName []; ISwitch (cases 0 entries) 1]) :: switchBlocks m cleanup 0 entries)
            (map (fun e => ICall (fst e) (snd e)) l ++ [ICall UserEntrySelectorName []; ISwitch (cases 0 entries) 1]) t -> (forall x, In x l -> In x (callsOf cs)) -> False).
        { clear t Hx. intros l. induction l as [|[f a] l IH]; intros t Hx Hs.
          - cbn in Hx. inversion Hx; subst; [congruence| |congruence]. match goal with H : exec _ _ _ [ISwitch _ _] _ |- _ => inversion H; subst end.
            match goal with H : nth_error _ _ = Some _ |- _ => rewrite cases_none in H by exact L; cbn in H; injection H as <- end.
            match goal with H : exec _ _ _ [IUnreachable] _ |- _ => inversion H end.
          - cbn in Hx. assert (N : ~ made m f).
            { specialize (Hs _ (or_introl eq_refl)). apply in_map_iff in Hs. destruct Hs as [[p g] [[= <- <-] Hin]]. apply (ctor_ok p g Hin). }
            inversion Hx; subst.
            + eapply IH; [eassumption|]. intros x Hin. apply Hs. now right.
            + apply N. unfold made. auto.
            + match goal with H : blocksOf F f = _ |- _ => rewrite (proj1 RF f N) in H; discriminate end. }
        eapply K; [exact Hx|auto].
  Qed.
End Built.
