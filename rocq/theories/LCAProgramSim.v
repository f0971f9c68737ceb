(** Every execution of a simple program is followed by valid paths of the
    exploded super-graph. *)
From Coq Require Import List Bool ZArith Arith Lia.
From Verif Require Import Assoc TableModel LatticeModel LCAModel LCASpec LCAProperties
  IDESolverModel IDESpec EdgeFunctionModel
  LLVMFlowFunctionsModel LLVMFlowFunctionsSpec LLVMFlowFunctionsProofs LLVMFlowFunctionsProperties
  LCAProgramModel LCAProgramSpec LCAProgramProofs.
Import ListNotations.

Lemma exact_fold w nsw op a b c : exactOp w nsw op -> computes w nsw op a b c ->
  match execute op (LVal a) (LVal b) with Ok l => l | _ => LBot end = LBot \/
  match execute op (LVal a) (LVal b) with Ok l => l | _ => LBot end = LVal c.
Proof.
  intros [W X] [u v x Hu Hv <- <- Hl Hn].
  destruct (execute op (LVal (signed w u)) (LVal (signed w v))) as [l| |] eqn:E; auto.
  destruct (C27_otherwise_bottom _ _ _ _ E) as [[->|(a' & b' & r & _ & _ & ->)] _]; auto. right. f_equal.
  assert (Y : op = Add \/ op = Sub \/ op = Mul \/ faithful w op u v) by (destruct op; cbn in *; auto; try contradiction).
  destruct (Z.eq_dec w 64) as [->|N].
  - destruct Y as [->|[->|[->|Y]]]; [| | |exact (C27_folded_constant_is_the_llvm_value_partial 64 op u v r x W Hu Hv Y E Hl)];
      match goal with |- _ => eapply C27_exact_at_64_bits; [|exact Hu|exact Hv|exact E|exact Hl]; auto end.
  - refine (C27_folded_constant_is_the_llvm_value_partial w op u v r x W Hu Hv _ E Hl). clear E Hl Y.
    destruct op; cbn in *; auto; try contradiction; (destruct X as [->|X]; [now apply Hn|contradiction]).
Qed.

Section Sim.
  Context {N F : Type} {EN : EqDec N} {EF : EqDec F}.
  Local Notation value := (value N F).
  Local Notation var := (var N F).
  Local Notation env := (@env N F).
  Variable soo : bool.
  Variable p : prog N F.
  Variable main : F.
  Hypothesis WF : prog_wf p.
  Hypothesis SI : simple p main.
  Local Notation lcl := (@lclient N F EN EF).
  Local Notation P := (lcaProblem soo p).
  Local Notation G := (lcaICFG p).
  Local Notation run e x := (apply lop lcl (proj1_sig e) x).

  Definition reaches (stk : list (N * F)) (n : N) (d : value) (lv : lval) : Prop :=
    vpath G P (nontop P) (holds_initially P (lcaSeeds p main)) (stk, n, d, lv).
  Definition covers stk n d z := exists lv, reaches stk n d lv /\ (lv = LBot \/ lv = LVal z).

  Lemma cov_nt z lv : lv = LBot \/ lv = LVal z -> nontop P lv.
  Proof. unfold nontop. cbn. intros [->| ->]; discriminate. Qed.

  (** *** edges *)
  Lemma go_normal stk n d lv n' d' z : reaches stk n d lv -> isCall p n = false -> In n' (succs p n) ->
    In d' (normalFlow p n n' d) -> (run (normalEdge p n d n' d') lv = LBot \/ run (normalEdge p n d n' d') lv = LVal z) ->
    reaches stk n' d' (run (normalEdge p n d n' d') lv).
  Proof.
    intros R HC HN HD HV. eapply vp_step; [exact R| |exact (cov_nt z _ HV)]. now apply (es_normal G P).
  Qed.
  Lemma go_ctr stk n d lv n' d' z : reaches stk n d lv -> isCall p n = true -> In n' (succs p n) ->
    In d' (ctrFlow p n n' d) -> (lv = LBot \/ lv = LVal z) -> reaches stk n' d' lv.
  Proof.
    intros R HC HN HD HV. eapply vp_step; [exact R| |exact (cov_nt z _ HV)].
    change lv with (run (@idE N F EN EF) lv) at 2. now apply (es_ctr G P).
  Qed.
  Lemma go_sum stk n d lv n' d' z f sf : reaches stk n d lv -> isCall p n = true -> In n' (succs p n) -> In f (calleesAt p n) ->
    sumFlow p n f = Some sf -> In d' (sf d) -> (run (sumEdge p n d n' d') lv = LBot \/ run (sumEdge p n d n' d') lv = LVal z) ->
    reaches stk n' d' (run (sumEdge p n d n' d') lv).
  Proof.
    intros R HC HN HF HS HD HV. eapply vp_step; [exact R| |exact (cov_nt z _ HV)].
    eapply (es_summary G P); eauto.
  Qed.
  Lemma go_call stk n d lv sp d' z f : reaches stk n d lv -> isCall p n = true -> In f (calleesAt p n) -> sumFlow p n f = None ->
    entry p f = Some sp -> In d' (callFlow p n f d) -> (run (callEdge p n d f d') lv = LBot \/ run (callEdge p n d f d') lv = LVal z) ->
    reaches ((n, f) :: stk) sp d' (run (callEdge p n d f d') lv).
  Proof.
    intros R HC HF HS HE HD HV. eapply vp_step; [exact R| |exact (cov_nt z _ HV)].
    apply (es_call G P); auto. cbn. rewrite HE. now left.
  Qed.
  Lemma go_ret stk c f e d lv r d' z : reaches ((c, f) :: stk) e d lv -> isCall p e = false -> (exists v, code p e = IRet v) ->
    In r (succs p c) -> In d' (retFlow p c f e r d) -> (run (retEdge p c f e d r d') lv = LBot \/ run (retEdge p c f e d r d') lv = LVal z) ->
    reaches stk r d' (run (retEdge p c f e d r d') lv).
  Proof.
    intros R HC [v He] HN HD HV. eapply vp_step; [exact R| |exact (cov_nt z _ HV)].
    apply (es_ret G P); auto. cbn. now rewrite He.
  Qed.

  (** *** binary operations *)
  Lemma binE_lin op l r cur : linear (mkBinOp op l r cur : binOp var) = true -> forall x,
    run (binE op l r cur) x = match computeTarget (mkBinOp op l r cur) x with Ok v => v | _ => LBot end.
  Proof.
    intros H x. unfold binE. destruct (bool_dec _ true) as [H'|H']; [reflexivity|contradiction].
  Qed.

  Definition num (c : cval) : option Z := match c with CInt z => Some z | CAgg z _ => Some z | CPtr _ => None end.
  Definition followed (x : var) : Prop :=
    numeric p main (Val x) \/ exists m w op l r f, x = VInst m /\ code p m = IBinIntrin w op l r f.

  Record frameOk (stk : list (N * F)) (n : N) (E : env) (M : loc -> cval) (k : nat) : Prop := {
    fo_zero : reaches stk n Zero LBot;
    fo_num : forall x c z, E x = Some c -> followed x -> num c = Some z -> covers stk n (Val x) z;
    fo_cell : forall m l z, code p m = IAlloca true -> E (VInst m) = Some (CPtr l) -> num (M l) = Some z -> covers stk n (Val (VInst m)) z;
    fo_loc : forall m b c, code p m = IAlloca b -> E (VInst m) = Some c -> exists j, c = CPtr (LMem j) /\ j < k;
    fo_inj : forall m m' b b' j, code p m = IAlloca b -> code p m' = IAlloca b' ->
      E (VInst m) = Some (CPtr (LMem j)) -> E (VInst m') = Some (CPtr (LMem j)) -> m = m'
  }.

  Lemma numeric_eval E x c : numeric p main (Val x) -> eval E (Val x) = Some c -> E x = Some c.
  Proof. destruct x; cbn; auto. contradiction. Qed.

  Lemma bin_cov stk n E M k w nsw op l r a b c : frameOk stk n E M k -> numeric p main l -> numeric p main r ->
    eval E l = Some (CInt a) -> eval E r = Some (CInt b) -> computes w nsw op a b c -> exactOp w nsw op ->
    exists d lv, reaches stk n d lv /\ flowsIn l r d = true /\ (d = Zero \/ d = l \/ d = r) /\
      (let e := if nonlinear l r d then botE else binE op l r d in run e lv = LBot \/ run e lv = LVal c).
  Proof.
    intros FO Nl Nr El Er HC HX. pose proof (exact_fold _ _ _ _ _ _ HX HC) as FX.
    destruct l as [|wl al|xl], r as [|wr br|xr]; try contradiction.
    - injection El as ->. injection Er as ->. exists Zero, LBot. split; [apply (fo_zero _ _ _ _ _ FO)|].
      split; [reflexivity|]. split; [auto|].
      change (nonlinear (Const wl a) (Const wr b) (Zero : value)) with false. cbv zeta iota.
      rewrite binE_lin by reflexivity. cbn -[execute]. exact FX.
    - injection El as ->. apply (numeric_eval E xr) in Er; auto.
      destruct (fo_num _ _ _ _ _ FO xr (CInt b) b Er (or_introl Nr) eq_refl) as (lv & R & V).
      exists (Val xr), lv. split; auto. split; [unfold flowsIn; rewrite (eqb_refl (Val xr)); now rewrite orb_true_r|].
      split; auto. unfold nonlinear. rewrite eqb_refl.
      replace (eqb (Val xr) (Const wl a)) with false by (symmetry; apply Assoc.eqb_false; discriminate).
      cbv zeta. cbn [isConstInt negb andb orb]. rewrite binE_lin.
      2:{ unfold linear. cbn [bL bR bCur sext]. rewrite eqb_refl. apply negb_true_iff. apply Assoc.eqb_false. discriminate. }
      destruct V as [->| ->]; [left; reflexivity|]. unfold computeTarget. cbn [bCur bL bR bOp sext].
      replace (eqb (Const wl a) (Val xr)) with false by (symmetry; apply Assoc.eqb_false; discriminate).
      rewrite eqb_refl. exact FX.
    - injection Er as ->. apply (numeric_eval E xl) in El; auto.
      destruct (fo_num _ _ _ _ _ FO xl (CInt a) a El (or_introl Nl) eq_refl) as (lv & R & V).
      exists (Val xl), lv. split; auto. split; [unfold flowsIn; now rewrite (eqb_refl (Val xl))|].
      split; auto. unfold nonlinear. rewrite eqb_refl.
      replace (eqb (Val xl) (Const wr b)) with false by (symmetry; apply Assoc.eqb_false; discriminate).
      cbv zeta. cbn [isConstInt negb andb orb]. rewrite binE_lin.
      2:{ unfold linear. cbn [bL bR bCur sext]. rewrite eqb_refl. apply negb_true_iff. apply Assoc.eqb_false. discriminate. }
      destruct V as [->| ->]; [left; reflexivity|]. unfold computeTarget. cbn [bCur bL bR bOp sext].
      rewrite eqb_refl. exact FX.
    - apply (numeric_eval E xl) in El; auto.
      destruct (fo_num _ _ _ _ _ FO xl (CInt a) a El (or_introl Nl) eq_refl) as (lv & R & V).
      exists (Val xl), lv. split; auto. split; [unfold flowsIn; now rewrite (eqb_refl (Val xl))|].
      split; auto. unfold nonlinear. rewrite eqb_refl. cbn [isConstInt negb andb orb]. left. reflexivity.
  Qed.

  (** *** what survives a step *)
  Lemma gen_self g pr (d : value) : In d (generateIf g pr d).
  Proof. unfold generateIf. destruct (pr d); now left. Qed.
  Lemma gen_gen g pr (d : value) : pr d = true -> In g (generateIf g pr d).
  Proof. unfold generateIf. intros ->. right. now left. Qed.

  Definition stores n d := exists v q b i, code p n = IStore v q b i /\ d = q.
  Lemma self_edge n n' d : isCall p n = false -> ~ stores n d ->
    In d (normalFlow p n n' d) /\ normalEdge p n d n' d = idE.
  Proof.
    intros HC HS. unfold normalFlow, normalEdge. unfold isCall in HC. pose proof (SI n) as Sn. destruct (code p n) as [i|v q b i|q i|q i|w s o l r|w o l r f|a i bi it|fs ar|rv|] eqn:EC;
      try discriminate.
    - split; [destruct i; [apply gen_self|now left]|]. destruct d; reflexivity.
    - destruct Sn as (_ & -> & -> & _).
      assert (ND : d <> q) by (intros ->; apply HS; unfold stores; eauto 10).
      assert (E1 : eqb q d = false) by (apply Assoc.eqb_false; congruence).
      assert (E2 : eqb d q = false) by (now apply Assoc.eqb_false).
      split; [|rewrite E1; cbn [orb]; destruct (isZero d && isZero d); reflexivity].
      unfold strongUpdateIf, strongUpdate. rewrite eqb_refl, E2. destruct (isConstInt v); [destruct (isZero d)|destruct (eqb d v)]; now left.
    - split; [destruct i; [apply gen_self|now left]|]. now destruct (isZero d && isZero d).
    - split; [destruct i; [apply gen_self|now left]|]. now destruct (isZero d && isZero d).
    - split; [apply gen_self|]. rewrite (eqb_refl d). cbn [negb]. rewrite andb_false_r. now destruct (isZero d && isZero d).
    - split; [destruct bi, it; try apply gen_self; now left|]. now destruct (isZero d && isZero d).
    - split; [now left|]. now destruct (isZero d && isZero d).
    - split; [now left|]. now destruct (isZero d && isZero d).
  Qed.
  Lemma cov_keep stk n n' d z : isCall p n = false -> ~ stores n d -> In n' (succs p n) -> covers stk n d z -> covers stk n' d z.
  Proof.
    intros HC HS HN (lv & R & V). destruct (self_edge n n' d HC HS) as [F1 F2]. exists lv. split; auto.
    replace lv with (run (normalEdge p n d n' d) lv) by (rewrite F2; reflexivity).
    eapply go_normal; eauto. rewrite F2. exact V.
  Qed.
  Lemma zero_nostore n : ~ stores n Zero.
  Proof. intros (v & q & b & i & E & <-). pose proof (SI n) as Sn. rewrite E in Sn. destruct Sn as ([] & _). Qed.
  Lemma zero_keep stk n n' : isCall p n = false -> In n' (succs p n) -> reaches stk n Zero LBot -> reaches stk n' Zero LBot.
  Proof.
    intros HC HN R. destruct (self_edge n n' Zero HC (zero_nostore n)) as [F1 F2].
    change (reaches stk n' Zero (run (@idE N F EN EF) LBot)). rewrite <- F2. eapply (go_normal _ _ _ _ _ _ 0%Z); eauto.
  Qed.

  Lemma simple_ICall c fs args : code p c = ICall fs args ->
    fs <> [] /\ (forall f, In f fs -> entry p f <> None /\ nparams p f = length args /\ sret p f = false) /\
    (forall a, In a args -> numeric p main a).
  Proof. intros E. pose proof (SI c) as S. now rewrite E in S. Qed.

  Definition notGlob (x : var) : Prop := match x with VGlob _ => False | _ => True end.
  Lemma ctr_keep c fs args n' x : code p c = ICall fs args -> notGlob x -> In (Val x) (ctrFlow p c n' (Val x)).
  Proof.
    intros EC NG. destruct (simple_ICall _ _ _ EC) as (H0 & HF & HA). unfold ctrFlow, calleesAt, argsAt. rewrite EC.
    replace (forallb (decl p) fs) with false.
    2:{ destruct fs as [|f fs]; [now elim H0|]. cbn. destruct (HF f) as (He & _ & _); [now left|]. unfold decl at 1. now destruct (entry p f). }
    unfold alongside. cbn [isZero]. replace (isConst (Val x)) with false by (destruct x; auto; contradiction).
    destruct (find _ args) as [a|] eqn:EF'; [|now left]. apply find_some in EF' as [Ia Ea]. apply eqb_eq in Ea. subst a.
    specialize (HA _ Ia). replace (pointer p (Val x)) with false; [now left|]. cbn in HA |- *. destruct x as [m|f i|g]; [|destruct HA; auto|contradiction].
    destruct (code p m); auto; contradiction.
  Qed.
  Lemma ctr_zero c n' : In Zero (ctrFlow p c n' Zero).
  Proof. unfold ctrFlow. destruct (forallb _ _); now left. Qed.
  Lemma ctr_intrin c w op l r f n' d : code p c = IBinIntrin w op l r f -> In d (ctrFlow p c n' d).
  Proof.
    intros EC. unfold ctrFlow, calleesAt. rewrite EC. pose proof (SI c) as S. rewrite EC in S. destruct S as (_ & _ & _ & S).
    cbn. unfold decl. rewrite S. now left.
  Qed.

  (** *** frames *)
  Lemma upd_same (E : env) x c : upd E x c x = Some c.
  Proof. unfold upd. destruct (eq_dec x x); congruence. Qed.
  Lemma upd_other (E : env) x y c : x <> y -> upd E x c y = E y.
  Proof. unfold upd. destruct (eq_dec x y); congruence. Qed.
  Lemma write_same M l c : write M l c l = c.
  Proof. unfold write. destruct (eq_dec l l); congruence. Qed.
  Lemma write_other M l l' c : l <> l' -> write M l c l' = M l'.
  Proof. unfold write. destruct (eq_dec l l'); congruence. Qed.

  Lemma followed_notGlob x : followed x -> notGlob x.
  Proof. intros [H|(m & w & op & l & r & f & -> & _)]; [|exact I]. destruct x; cbn in *; auto. Qed.

  Lemma frame_upd stk n n' E M k m c : frameOk stk n E M k -> reaches stk n' Zero LBot ->
    (forall x z, notGlob x -> covers stk n (Val x) z -> covers stk n' (Val x) z) ->
    (forall b, code p m <> IAlloca b) ->
    (forall z, followed (VInst m) -> num c = Some z -> covers stk n' (Val (VInst m)) z) ->
    frameOk stk n' (upd E (VInst m) c) M k.
  Proof.
    intros [Z0 NU CE LO IN] HZ HK HA HC.
    assert (O : forall m' b, code p m' = IAlloca b -> upd E (VInst m) c (VInst m') = E (VInst m')).
    { intros m' b E'. apply upd_other. intros [= ->]. now apply (HA b). }
    split; auto.
    - intros x c' z Ex Fx Nc. unfold upd in Ex. destruct (eq_dec (VInst m) x) as [<-|D]; [injection Ex as <-; auto|].
      apply HK; [now apply followed_notGlob|eauto].
    - intros m' l z C' E' V. rewrite (O m' _ C') in E'. apply HK; [exact I|eauto].
    - intros m' b c' C' E'. rewrite (O m' _ C') in E'. eauto.
    - intros m1 m2 b1 b2 j C1 C2 E1 E2. rewrite (O _ _ C1) in E1. rewrite (O _ _ C2) in E2. eauto.
  Qed.
  Lemma frame_same stk n n' E M k : frameOk stk n E M k -> reaches stk n' Zero LBot ->
    (forall x z, notGlob x -> covers stk n (Val x) z -> covers stk n' (Val x) z) -> frameOk stk n' E M k.
  Proof.
    intros [Z0 NU CE LO IN] HZ HK. split; auto.
    - intros. apply HK; [now apply followed_notGlob|eauto].
    - intros. apply HK; [exact I|eauto].
  Qed.

  Definition owns (E : env) j := exists m b, code p m = IAlloca b /\ E (VInst m) = Some (CPtr (LMem j)).
  Definition disj (E E' : env) := forall j, owns E j -> owns E' j -> False.
  Definition sites (K : list (N * F * env)) : list (N * F) := map fst K.
  Fixpoint stackOk (n : N) (E : env) (K : list (N * F * env)) (M : loc -> cval) (k : nat) : Prop :=
    frameOk (sites K) n E M k /\
    match K with
    | [] => True
    | (c, f, Ec) :: K' =>
        fnOf p n = f /\ (exists fs args, code p c = ICall fs args /\ In f fs) /\
        (forall fr, In fr K -> disj E (snd fr)) /\ stackOk c Ec K' M k
    end.
  Definition globOk stk n (M : loc -> cval) := forall g z, In g (map fst (inits p)) -> num (M (LGlob g)) = Some z -> covers stk n (Val (VGlob g)) z.
  Definition inv (c : @conf N F) : Prop :=
    match c with (n, E, K, M, k) => stackOk n E K M k /\ globOk (sites K) n M end.

  Lemma frame_mem stk n E M M' k k' : frameOk stk n E M k -> k <= k' -> (forall j, owns E j -> M' (LMem j) = M (LMem j)) -> frameOk stk n E M' k'.
  Proof.
    intros [Z0 NU CE LO IN] Hk HM. split; auto.
    - intros m l z C E' V. destruct (LO m true _ C E') as (j & [= ->] & _). rewrite HM in V by (exists m, true; auto). eauto.
    - intros m b c C E'. destruct (LO m b c C E') as (j & -> & Hj). exists j. split; auto. lia.
  Qed.
  Lemma stack_mem K : forall n E M M' k k', stackOk n E K M k -> k <= k' ->
    (forall j, owns E j \/ (exists fr, In fr K /\ owns (snd fr) j) -> M' (LMem j) = M (LMem j)) -> stackOk n E K M' k'.
  Proof.
    induction K as [|[[c f] Ec] K IH]; intros n E M M' k k' [FO ST] Hk HM; cbn [stackOk].
    - split; auto. eapply frame_mem; eauto.
    - split; [eapply frame_mem; eauto|]. destruct ST as (Hf & HC & HD & ST). split; auto. split; auto. split; auto.
      eapply IH; eauto. intros j [O|(fr & I' & O)]; apply HM; right; [exists (c, f, Ec)|exists fr]; cbn; auto.
  Qed.
  (** all allocations of all frames are below the counter *)
  Lemma owned_below K : forall n E M k, stackOk n E K M k -> forall j, owns E j \/ (exists fr, In fr K /\ owns (snd fr) j) -> j < k.
  Proof.
    induction K as [|[[c f] Ec] K IH]; intros n E M k [FO ST] j [(m & b & C & E')|(fr & I' & O)].
    - destruct (fo_loc _ _ _ _ _ FO m b _ C E') as (j' & [= ->] & H). exact H.
    - destruct I'.
    - destruct (fo_loc _ _ _ _ _ FO m b _ C E') as (j' & [= ->] & H). exact H.
    - destruct ST as (_ & _ & _ & ST). destruct I' as [<-|I']; [eapply IH; [exact ST|now left]|]. eapply IH; [exact ST|right; eauto].
  Qed.

  (** a step within a function *)
  Lemma stack_step n n' E E' K M M' k k' : stackOk n E K M k -> fnOf p n' = fnOf p n -> k <= k' ->
    frameOk (sites K) n' E' M' k' -> (forall j, owns E' j -> owns E j \/ k <= j) ->
    (forall j, (exists fr, In fr K /\ owns (snd fr) j) -> M' (LMem j) = M (LMem j)) -> stackOk n' E' K M' k'.
  Proof.
    intros ST Hf Hk FO HO HM. pose proof (owned_below _ _ _ _ _ ST) as OB. destruct K as [|[[c f] Ec] K]; cbn [stackOk] in *; [auto|].
    destruct ST as (_ & Hf' & HC & HD & ST). split; auto. split; [congruence|]. split; auto. split.
    - intros fr I' j O1 O2. destruct (HO j O1) as [O|H]; [now apply (HD fr I' j)|]. assert (j < k) by (apply OB; right; eauto). lia.
    - eapply stack_mem; eauto. intros j [O|(fr & I' & O)]; apply HM; [exists (c, f, Ec)|exists fr]; cbn; auto.
  Qed.

  Lemma owns_upd E m c j : (forall b, code p m <> IAlloca b) -> owns (upd E (VInst m) c) j -> owns E j.
  Proof.
    intros HA (m' & b & C & E'). exists m', b. split; auto. rewrite upd_other in E'; auto. intros [= ->]. now apply (HA b).
  Qed.

  Lemma frame_of n E K M k : stackOk n E K M k -> frameOk (sites K) n E M k.
  Proof. destruct K as [|[[? ?] ?] ?]; intros H; apply H. Qed.
  (** an instruction other than alloca, store, call and return *)
  Lemma inv_compute n n' E K M k c : inv (n, E, K, M, k) -> In n' (succs p n) ->
    reaches (sites K) n' Zero LBot ->
    (forall d z, d <> Zero -> covers (sites K) n d z -> covers (sites K) n' d z) ->
    (forall b, code p n <> IAlloca b) ->
    (forall z, followed (VInst n) -> num c = Some z -> covers (sites K) n' (Val (VInst n)) z) ->
    inv (n', upd E (VInst n) c, K, M, k).
  Proof.
    intros [ST GL] HN HZ HK HA HC. split.
    - eapply stack_step; eauto; [apply (pw_succ p WF); auto| |intros j O; left; eapply owns_upd; eauto].
      refine (frame_upd (sites K) n n' E M k n c (frame_of _ _ _ _ _ ST) HZ _ HA HC). intros x z _ X. apply HK; [discriminate|exact X].
    - intros g z Hg V. apply HK; [discriminate|]. now apply GL.
  Qed.

  Lemma fnOf_call_entry c f fs args : code p c = ICall fs args -> In f fs -> exists sp, entry p f = Some sp /\ fnOf p sp = f.
  Proof.
    intros EC I'. destruct (simple_ICall _ _ _ EC) as (_ & HF & _). destruct (HF f I') as (He & _ & _).
    destruct (entry p f) as [sp|] eqn:E; [|congruence]. exists sp. split; auto. now apply (pw_entry p WF).
  Qed.

  (** the values of operands *)
  Lemma operand_cov stk n E M k v z : frameOk stk n E M k -> numeric p main v -> forall c, eval E v = Some c -> num c = Some z ->
    match v with Const _ z' => z' = z | _ => covers stk n v z end.
  Proof.
    intros FO NV c EV NC. destruct v as [|w a|x]; [contradiction|injection EV as <-; now injection NC|].
    apply numeric_eval in EV; auto. eapply (fo_num _ _ _ _ _ FO); eauto. now left.
  Qed.

  Lemma inv_call n E K M k fs args f sp E' : inv (n, E, K, M, k) -> code p n = ICall fs args -> In f fs -> entry p f = Some sp ->
    (forall i a, nth_error args i = Some a -> eval E a <> None /\ E' (VArg f i) = eval E a) ->
    (forall x, (forall i, i < length args -> x <> VArg f i) -> E' x = None) ->
    inv (sp, E', (n, f, E) :: K, M, k).
  Proof.
    intros [ST GL] EC If Ee HA HO. pose proof (frame_of _ _ _ _ _ ST) as FO.
    destruct (simple_ICall _ _ _ EC) as (H0 & HF & HNA). destruct (HF f If) as (_ & Hp & Hs).
    assert (CS : isCall p n = true) by (unfold isCall; now rewrite EC).
    assert (NS : sumFlow p n f = None) by (unfold sumFlow; now rewrite EC).
    assert (IC : In f (calleesAt p n)) by (unfold calleesAt; now rewrite EC).
    assert (DC : decl p f = false) by (unfold decl; now rewrite Ee).
    assert (CF : forall d d', docCallee (fun d => isZero d = true) (fun d => isConst d = true) (fun v : value => v)
                   (fun a s => eqb a s || (isZero s && isConstInt a)) true true args (cParams (sig p f)) d d' -> In d' (callFlow p n f d)).
    { intros d d' Hd. unfold callFlow. rewrite DC.
      destruct (C50_to_callee_as_documented value value isZero isConst (fun v => v) (fun d => d)
        (fun a s => eqb a s || (isZero s && isConstInt a)) true true (argsAt p n) (sig p f) d) as (l & -> & Hl); auto.
      { unfold argsAt. rewrite EC. cbn. now rewrite map_length, seq_length. }
      apply Hl. unfold argsAt. now rewrite EC. }
    assert (NG : forall x, E' x <> None -> exists i a, x = VArg f i /\ nth_error args i = Some a /\ E' x = eval E a).
    { intros x Hx. destruct x as [m|f' i|g]; try (elim Hx; apply HO; discriminate).
      destruct (nth_error args i) as [a|] eqn:Ea.
      - destruct (EF f' f) as [->|D]; [exists i, a; split; auto; split; auto; now apply HA|]. elim Hx. apply HO. congruence.
      - elim Hx. apply HO. intros i' Hi' [= -> ->]. apply nth_error_None in Ea. lia. }
    assert (NO : forall m, E' (VInst m) = None).
    { intros m. destruct (E' (VInst m)) eqn:X; auto. destruct (NG (VInst m)) as (i & a & X' & _); [congruence|discriminate]. }
    split.
    - cbn [stackOk sites map fst]. split; [|split; [now apply (pw_entry p WF)|split; [eauto|split; auto]]].
      + split.
        * change (reaches ((n, f) :: sites K) sp Zero (run (callEdge p n Zero f Zero) LBot)).
          apply (go_call _ _ _ _ _ _ 0%Z); auto; [apply (fo_zero _ _ _ _ _ FO)|]. apply CF. left. auto.
        * intros x c z Ex Fx NC. destruct (NG x) as (i & a & -> & Ea & Ev); [congruence|]. rewrite Ev in Ex.
          assert (Na : numeric p main a) by (apply HNA; eapply nth_error_In; eauto).
          assert (Hi : i < length args) by (apply nth_error_Some; congruence).
          assert (Ep : nth_error (cParams (sig p f)) i = Some (Val (VArg f i))).
          { cbn. rewrite nth_error_map. rewrite (nth_error_nth' _ 0) by (rewrite seq_length; lia). rewrite seq_nth by lia. reflexivity. }
          pose proof (operand_cov _ _ _ _ _ a z FO Na c Ex NC) as OC. destruct a as [|w az|y]; [contradiction| |].
          -- subst az. exists (LVal z). split; auto.
             assert (EE : callEdge p n (Zero : value) f (Val (VArg f i)) = genConstant z).
             { unfold callEdge. cbn [isZero]. unfold argsAt. rewrite EC, Ea. reflexivity. }
             change (LVal z) with (run (@genConstant N F EN EF z) LBot). rewrite <- EE.
             apply (go_call _ _ _ _ _ _ z); auto; [apply (fo_zero _ _ _ _ _ FO)| |rewrite EE; auto].
             apply CF. right. right. exists i, (Const w z), (Val (VArg f i)). repeat split; auto. 
          -- destruct OC as (lv & R & V). exists lv. split; auto.
             assert (EE : callEdge p n (Val y) f (Val (VArg f i)) = idE) by reflexivity.
             change lv with (run (@idE N F EN EF) lv). rewrite <- EE.
             apply (go_call _ _ _ _ _ _ z); auto.
             apply CF. right. right. exists i, (Val y), (Val (VArg f i)). repeat split; auto. now rewrite eqb_refl.
        * intros m l z _ E1. rewrite NO in E1. discriminate.
        * intros m b c _ E1. rewrite NO in E1. discriminate.
        * intros m m' b b' j _ _ E1. rewrite NO in E1. discriminate.
      + intros fr _ j (m & b & _ & E1). rewrite NO in E1. discriminate.
    - intros g z Hg V. destruct (GL g z Hg V) as (lv & R & Vl). exists lv. split; auto.
      change (reaches ((n, f) :: sites K) sp (Val (VGlob g)) (run (callEdge p n (Val (VGlob g)) f (Val (VGlob g))) lv)).
      apply (go_call _ _ _ _ _ (Val (VGlob g)) z); auto. apply CF. right. left. repeat split; auto. discriminate.
  Qed.

  Lemma gen_const stk n n' d z : reaches stk n Zero LBot -> isCall p n = false -> In n' (succs p n) ->
    In d (normalFlow p n n' Zero) -> normalEdge p n Zero n' d = genConstant z -> covers stk n' d z.
  Proof.
    intros R HC HN HD EE. exists (LVal z). split; auto. change (LVal z) with (run (@genConstant N F EN EF z) LBot). rewrite <- EE.
    apply (go_normal _ _ _ _ _ _ z); auto. rewrite EE. auto.
  Qed.
  Lemma gen_id stk n n' d d' z : covers stk n d z -> isCall p n = false -> In n' (succs p n) ->
    In d' (normalFlow p n n' d) -> normalEdge p n d n' d' = idE -> covers stk n' d' z.
  Proof.
    intros (lv & R & V) HC HN HD EE. exists lv. split; auto. change lv with (run (@idE N F EN EF) lv). rewrite <- EE.
    apply (go_normal _ _ _ _ _ _ z); auto. rewrite EE. auto.
  Qed.

  Lemma inv_alloca n n' E K M k b u : inv (n, E, K, M, k) -> code p n = IAlloca b -> In n' (succs p n) ->
    inv (n', upd E (VInst n) (CPtr (LMem k)), K, write M (LMem k) u, S k).
  Proof.
    intros [ST GL] EC HN. pose proof (frame_of _ _ _ _ _ ST) as FO. pose proof (owned_below _ _ _ _ _ ST) as OB.
    assert (CS : isCall p n = false) by (unfold isCall; now rewrite EC).
    assert (NS : forall d, ~ stores n d) by (intros d (v & q & b' & i & E' & _); congruence).
    assert (KE : forall d z, covers (sites K) n d z -> covers (sites K) n' d z) by (intros; eapply cov_keep; eauto).
    split.
    - eapply stack_step; eauto; [apply (pw_succ p WF); auto| | |].
      + destruct FO as [Z0 NU CE LO IN]. split.
        * eapply zero_keep; eauto.
        * intros x c z Ex Fx NC. unfold upd in Ex. destruct (eq_dec (VInst n) x) as [<-|D]; [injection Ex as <-; discriminate|eauto].
        * intros m l z C E1 V. unfold upd in E1. destruct (eq_dec (VInst n) (VInst m)) as [[= <-]|D].
          -- rewrite EC in C. injection C as ->. injection E1 as <-. exists LBot. split; auto.
             assert (EE : normalEdge p n (Zero : value) n' (Val (VInst n)) = botE) by (unfold normalEdge; cbn [isZero andb]; now rewrite EC).
             change (@LBot Z) with (run (@botE N F EN EF) LBot). rewrite <- EE. apply (go_normal _ _ _ _ _ _ 0%Z); auto.
             ++ unfold normalFlow. rewrite EC. right. now left.
             ++ rewrite EE. auto.
          -- destruct (LO m true _ C E1) as (j & [= ->] & Hj). rewrite write_other in V by (intros [= ->]; lia). apply KE. eauto.
        * intros m b' c C E1. unfold upd in E1. destruct (eq_dec (VInst n) (VInst m)) as [[= <-]|D]; [injection E1 as <-; exists k; split; [auto|lia]|].
          destruct (LO m b' _ C E1) as (j & -> & Hj). exists j. split; [auto|lia].
        * intros m m' b1 b2 j C1 C2 E1 E2. unfold upd in E1, E2.
          destruct (eq_dec (VInst n) (VInst m)) as [[= <-]|D], (eq_dec (VInst n) (VInst m')) as [[= <-]|D']; auto.
          -- injection E1 as <-. destruct (LO _ _ _ C2 E2) as (j & [= <-] & Hj). lia.
          -- injection E2 as <-. destruct (LO _ _ _ C1 E1) as (j & [= <-] & Hj). lia.
          -- eauto.
      + intros j (m & b' & C & E1). unfold upd in E1. destruct (eq_dec (VInst n) (VInst m)) as [[= <-]|D]; [injection E1 as <-; right; lia|].
        left. exists m, b'. auto.
      + intros j O. apply write_other. intros [= <-]. assert (k < k) by (apply OB; auto). lia.
    - intros g z Hg V. rewrite write_other in V by discriminate. auto.
  Qed.

  Lemma inv_store n n' E K M k v q b i l c : inv (n, E, K, M, k) -> code p n = IStore v q b i -> In n' (succs p n) ->
    eval E q = Some (CPtr l) -> eval E v = Some c -> inv (n', E, K, write M l c, k).
  Proof.
    intros [ST GL] EC HN Eq Ev. pose proof (frame_of _ _ _ _ _ ST) as FO. pose proof (SI n) as Sn. rewrite EC in Sn.
    destruct Sn as (Cq & Eb & Ei & Nv). subst b i.
    assert (CS : isCall p n = false) by (unfold isCall; now rewrite EC).
    assert (KE : forall d z, d <> q -> covers (sites K) n d z -> covers (sites K) n' d z).
    { intros d z D. apply cov_keep; auto. intros (v' & q' & b' & i & E' & ->). congruence. }
    assert (NEW : forall z, num c = Some z -> covers (sites K) n' q z).
    { intros z Hz. pose proof (operand_cov _ _ _ _ _ v z FO Nv c Ev Hz) as OC.
      assert (EZ : isZero q = false) by (destruct q; auto; contradiction).
      destruct v as [|w az|y]; [contradiction| |].
      - subst az. eapply gen_const; eauto; [apply (fo_zero _ _ _ _ _ FO)| |].
        + unfold normalFlow. rewrite EC. cbn [isConstInt]. unfold strongUpdateIf. rewrite eqb_refl.
          match goal with |- context [if ?c then _ else _] => destruct c eqn:X end; [apply eqb_eq in X; subst q; discriminate|]. cbn [isZero]. right. now left.
        + unfold normalEdge. rewrite EZ. cbn [isZero andb]. rewrite EC, eqb_refl. reflexivity.
      - assert (D : Val y <> q).
        { intros <-. destruct y as [m|f' i'|g]; cbn in Nv, Cq; try contradiction. rewrite Cq in Nv. exact Nv. }
        eapply gen_id; [exact OC| | | |]; auto.
        + unfold normalFlow. rewrite EC. cbn [isConstInt]. unfold strongUpdate. rewrite !eqb_refl.
          match goal with |- context [if ?c then _ else _] => destruct c eqn:X end; [apply eqb_eq in X; contradiction|]. right. now left.
        + unfold normalEdge. cbn [isZero andb]. rewrite EC. now destruct (_ || _). }
    split.
    - eapply stack_step; eauto; [apply (pw_succ p WF); auto| |].
      + destruct FO as [Z0 NU CE LO IN]. split; auto.
        * eapply zero_keep; eauto.
        * intros x c' z Ex Fx NC. apply KE; [|eauto]. intros <-. destruct x as [m|f' i'|g]; cbn in Cq; try contradiction.
          -- destruct Fx as [Fx|(m' & w & op & l' & r & f & [= <-] & Fx)]; [cbn in Fx; now rewrite Cq in Fx|congruence].
          -- destruct Fx as [[]|(m' & w & op & l' & r & f & X & Fx)]. discriminate.
        * intros m l' z C E1 V. destruct (eq_dec l l') as [<-|D].
          -- rewrite write_same in V. destruct (LO m true _ C E1) as (j & [= ->] & _).
             destruct q as [|w' a|[m'|f' i'|g]]; cbn in Cq; try contradiction.
             ++ cbn in Eq. rewrite (IN m m' _ _ j C Cq E1 Eq). auto.
             ++ cbn in Eq. discriminate.
          -- rewrite write_other in V by auto. apply KE; [|eauto]. intros <-. cbn in Eq. congruence.
      + intros j (fr & I' & O). apply write_other. intros ->.
        destruct q as [|w' a|[m'|f' i'|g]]; cbn in Cq, Eq; try contradiction; try discriminate.
        destruct K as [|[[c0 f0] E0] K]; [destruct I'|]. destruct ST as (_ & _ & _ & HD & _). apply (HD fr I' j); auto.
        exists m', true. auto.
    - intros g z Hg V. destruct (eq_dec l (LGlob g)) as [->|D].
      + rewrite write_same in V. destruct q as [|w' a|[m'|f' i'|g']]; cbn in Cq, Eq; try contradiction.
        * destruct (fo_loc _ _ _ _ _ FO m' true _ Cq Eq) as (j & [=] & _).
        * injection Eq as ->. auto.
      + rewrite write_other in V by auto. apply KE; [|auto]. intros <-. cbn in Eq. congruence.
  Qed.

  Lemma ctr_cov stk c fs args n' x z : code p c = ICall fs args -> In n' (succs p c) -> notGlob x ->
    covers stk c (Val x) z -> covers stk n' (Val x) z.
  Proof.
    intros EC HN NG (lv & R & V). exists lv. split; auto. apply (go_ctr stk c (Val x) lv n' (Val x) z); auto.
    - unfold isCall. now rewrite EC.
    - eapply ctr_keep; eauto.
  Qed.

  Lemma inv_ret n n' E c f Ec K M k rv x : inv (n, E, (c, f, Ec) :: K, M, k) -> code p n = IRet rv -> In n' (succs p c) ->
    match rv with Some v => eval E v = Some x | None => True end ->
    inv (n', match rv with Some _ => upd Ec (VInst c) x | None => Ec end, K, M, k).
  Proof.
    intros [ST GL] EC HN Ev. cbn [stackOk] in ST. destruct ST as (FO & Hf & (fs & args & Cc & If) & HD & ST).
    pose proof (frame_of _ _ _ _ _ ST) as FC. destruct (simple_ICall _ _ _ Cc) as (H0 & HF & HNA). destruct (HF f If) as (_ & Hp & Hs).
    assert (CS : isCall p n = false) by (unfold isCall; now rewrite EC).
    assert (CF : forall d d', docCaller (fun d => isZero d = true) (fun d => isConst d = true) (fun v : value => v)
                   (fun a s => eqb a s && pointer p a) (fun r s => eqb r s || (isZero s && isConstInt r)) true true
                   args (cParams (sig p f)) rv (Val (VInst c)) d d' -> In d' (retFlow p c f n n' d)).
    { intros d d' Hd. unfold retFlow, argsAt, retVal. rewrite Cc, EC, Hf.
      destruct (C50_to_caller_exact value value isZero isConst (fun v => v) (fun a s => eqb a s && pointer p a)
        (fun r s => eqb r s || (isZero s && isConstInt r)) true true args (sig p f) rv (Val (VInst c)) d) as (l & -> & Hl); auto.
      { unfold arityOk. cbn. rewrite map_length, seq_length, Hp. now rewrite Nat.leb_refl, Nat.eqb_refl. }
      apply Hl. now left. }
    assert (GL' : globOk (sites K) n' M).
    { intros g z Hg V. destruct (GL g z Hg V) as (lv & R & Vl). exists lv. split; auto.
      change lv with (run (retEdge p c f n (Val (VGlob g)) n' (Val (VGlob g))) lv).
      apply (go_ret _ _ _ _ _ _ _ _ z); eauto. apply CF. right. left. repeat split; auto. discriminate. }
    assert (HZ : reaches (sites K) n' Zero LBot).
    { apply (go_ctr (sites K) c Zero LBot n' Zero 0%Z); auto; [apply (fo_zero _ _ _ _ _ FC)|unfold isCall; now rewrite Cc|apply ctr_zero]. }
    assert (KE : forall y z, notGlob y -> covers (sites K) c (Val y) z -> covers (sites K) n' (Val y) z) by (intros; eapply ctr_cov; eauto).
    assert (FN : fnOf p n' = fnOf p c) by (now apply (pw_succ p WF)).
    split; auto. destruct rv as [v|].
    - assert (NA : forall b, code p c <> IAlloca b) by (intros b; congruence).
      apply (stack_step c n' Ec _ K M M k k); auto; [|intros j O; left; eapply owns_upd; eauto].
      eapply frame_upd; eauto. intros z _ NC. pose proof (SI n) as Sn. rewrite EC in Sn.
      pose proof (operand_cov _ _ _ _ _ v z FO Sn x Ev NC) as OC. destruct v as [|w az|y]; [contradiction| |].
      + subst az. exists (LVal z). split; auto.
        assert (EE : retEdge p c f n (Zero : value) n' (Val (VInst c)) = genConstant z).
        { unfold retEdge, retVal. cbn [isZero andb negb]. now rewrite EC. }
        change (LVal z) with (run (@genConstant N F EN EF z) LBot). rewrite <- EE.
        apply (go_ret _ _ _ _ _ _ _ _ z); eauto; [apply (fo_zero _ _ _ _ _ FO)| |rewrite EE; auto].
        apply CF. right. right. right. exists (Const w z). repeat split; auto.
      + destruct OC as (lv & R & V). exists lv. split; auto.
        change lv with (run (retEdge p c f n (Val y) n' (Val (VInst c))) lv).
        apply (go_ret _ _ _ _ _ _ _ _ z); eauto.
        apply CF. right. right. right. exists (Val y). repeat split; auto. now rewrite eqb_refl.
    - apply (stack_step c n' Ec Ec K M M k k); auto. eapply frame_same; eauto.
  Qed.

  Lemma inv_step c c' : inv c -> step p c c' -> inv c'.
  Proof.
    intros IV ST.
    destruct ST as [n n' E K M k b u EC HN|n n' E K M k v q b i l c EC HN Eq Ev|n n' E K M k q i l EC HN Eq
      |n n' E K M k w nsw op l r a b c EC HN El Er HC|n n' E K M k w op l r f a b c flag EC HN El Er HC HO
      |n n' E K M k agg i bin int z flag EC HN Ea|n n' E K M k z EC HN|n E K M k fs args f sp E' EC If Ee Hl HA HO
      |n n' E K M k fs args f z M' EC If Ee HN HM|n n' E c f Ec K M k v x EC HN Ev|n n' E c f Ec K M k EC HN].
    - eapply inv_alloca; eauto.
    - eapply inv_store; eauto.
    - (* load *)
      destruct IV as [ST GL]. pose proof (frame_of _ _ _ _ _ ST) as FO. pose proof (SI n) as Sn. rewrite EC in Sn. destruct Sn as (Cq & ->).
      assert (CS : isCall p n = false) by (unfold isCall; now rewrite EC).
      assert (NS : forall d, ~ stores n d) by (intros d (v & q' & b' & i & E' & _); congruence).
      apply (inv_compute n n' E K M k); auto; [now split|eapply zero_keep; eauto; apply (fo_zero _ _ _ _ _ FO)|intros; eapply cov_keep; eauto|congruence|].
      intros z _ NC. assert (CQ : covers (sites K) n q z).
      { destruct q as [|w' a|[m'|f' i'|g']]; cbn in Cq, Eq; try contradiction; [eapply (fo_cell _ _ _ _ _ FO); eauto|].
        injection Eq as <-. now apply GL. }
      eapply gen_id; [exact CQ| | | |]; auto.
      + unfold normalFlow. rewrite EC. apply gen_gen. apply eqb_refl.
      + unfold normalEdge. rewrite EC. now destruct (_ && _).
    - (* binary operation *)
      pose proof IV as [ST GL]. pose proof (frame_of _ _ _ _ _ ST) as FO. pose proof (SI n) as Sn. rewrite EC in Sn. destruct Sn as (HX & Nl & Nr & Dl & Dr).
      assert (CS : isCall p n = false) by (unfold isCall; now rewrite EC).
      assert (NS : forall d, ~ stores n d) by (intros d (v & q' & b' & i & E' & _); congruence).
      apply (inv_compute n n' E K M k); auto; [eapply zero_keep; eauto; apply (fo_zero _ _ _ _ _ FO)|intros; eapply cov_keep; eauto|congruence|].
      intros z _ [= ->]. destruct (bin_cov _ _ _ _ _ _ _ _ _ _ _ _ _ FO Nl Nr El Er HC HX) as (d & lv & R & FI & DD & V). cbv zeta in V.
      assert (D : d <> Val (VInst n)) by (destruct DD as [->|[->| ->]]; auto; discriminate).
      assert (EE : normalEdge p n d n' (Val (VInst n)) = if nonlinear l r d then botE else binE op l r d).
      { unfold normalEdge. cbn [isZero]. rewrite andb_false_r, EC, eqb_refl. now rewrite (proj2 (Assoc.eqb_false _ _) D). }
      rewrite <- EE in V. eexists. split; [|exact V]. apply (go_normal _ _ _ _ _ _ z); auto.
      unfold normalFlow. rewrite EC. now apply gen_gen.
    - (* overflow intrinsic *)
      pose proof IV as [ST GL]. pose proof (frame_of _ _ _ _ _ ST) as FO. pose proof (SI n) as Sn. rewrite EC in Sn. destruct Sn as (HX & Nl & Nr & Hd).
      assert (CS : isCall p n = true) by (unfold isCall; now rewrite EC).
      assert (SF : sumFlow p n f = Some (generateIf (Val (VInst n)) (flowsIn l r))) by (unfold sumFlow; now rewrite EC).
      assert (IC : In f (calleesAt p n)) by (unfold calleesAt; rewrite EC; now left).
      apply (inv_compute n n' E K M k); auto; [| |congruence|].
      + apply (go_ctr _ n Zero LBot n' Zero 0%Z); auto; [apply (fo_zero _ _ _ _ _ FO)|apply ctr_zero].
      + intros d z _ (lv & R & V). exists lv. split; auto. apply (go_ctr _ n d lv n' d z); auto. eapply ctr_intrin; eauto.
      + intros z _ [= ->]. destruct (bin_cov _ _ _ _ _ _ _ _ _ _ _ _ _ FO Nl Nr El Er HC HX) as (d & lv & R & FI & DD & V). cbv zeta in V.
        assert (D : d <> Val (VInst n)).
        { destruct DD as [->|[->| ->]]; [discriminate| |]; intros ->; cbn in Nl, Nr; now rewrite EC in *. }
        assert (EE : sumEdge p n d n' (Val (VInst n)) = if nonlinear l r d then botE else binE op l r d).
        { unfold sumEdge. rewrite EC, eqb_refl. now rewrite (proj2 (Assoc.eqb_false _ _) D). }
        rewrite <- EE in V. eexists. split; [|exact V]. eapply (go_sum _ _ _ _ _ _ z); eauto. now apply gen_gen.
    - (* extractvalue *)
      pose proof IV as [ST GL]. pose proof (frame_of _ _ _ _ _ ST) as FO. pose proof (SI n) as Sn. rewrite EC in Sn. destruct Sn as (-> & -> & -> & Ha).
      assert (CS : isCall p n = false) by (unfold isCall; now rewrite EC).
      assert (NS : forall d, ~ stores n d) by (intros d (v & q' & b' & i & E' & _); congruence).
      apply (inv_compute n n' E K M k); auto; [eapply zero_keep; eauto; apply (fo_zero _ _ _ _ _ FO)|intros; eapply cov_keep; eauto|congruence|].
      intros z' _ [= ->]. destruct agg as [| |[m|f' i'|g]]; try contradiction. destruct (code p m) as [| | | | |w o l r f| | | |] eqn:Em; try contradiction.
      assert (CQ : covers (sites K) n (Val (VInst m)) z').
      { eapply (fo_num _ _ _ _ _ FO); [exact Ea| |reflexivity]. right. eauto 10. }
      eapply gen_id; [exact CQ| | | |]; auto.
      + unfold normalFlow. rewrite EC. apply gen_gen. apply eqb_refl.
      + unfold normalEdge. rewrite EC. now destruct (_ && _).
    - (* other instructions *)
      pose proof IV as [ST GL]. pose proof (frame_of _ _ _ _ _ ST) as FO.
      assert (CS : isCall p n = false) by (unfold isCall; now rewrite EC).
      assert (NS : forall d, ~ stores n d) by (intros d (v & q' & b' & i & E' & _); congruence).
      apply (inv_compute n n' E K M k); auto; [eapply zero_keep; eauto; apply (fo_zero _ _ _ _ _ FO)|intros; eapply cov_keep; eauto|congruence|].
      intros z' [Fx|(m & w & op & l & r & f & [= <-] & Fx)]; [cbn in Fx; now rewrite EC in Fx|congruence].
    - eapply inv_call; eauto.
    - (* external call *)
      destruct (simple_ICall _ _ _ EC) as (_ & HF & _). destruct (HF f If) as (He & _). contradiction.
    - exact (inv_ret n n' E c f Ec K M k (Some v) x IV EC HN Ev).
    - exact (inv_ret n n' E c f Ec K M k None (CInt 0) IV EC HN I).
  Qed.

  Lemma inv_exec c : exec p main c -> inv c.
  Proof.
    induction 1 as [sp E M Ee HE HM|c c' _ IH ST]; [|eapply inv_step; eauto].
    assert (SE : In (sp, (Zero, LBot) :: map (fun gz => (Val (VGlob (fst gz)), LVal (snd gz))) (inits p)) (lcaSeeds p main)).
    { unfold lcaSeeds. rewrite Ee. now left. }
    assert (NI : forall m c, E (VInst m) <> Some c).
    { intros m c X. destruct (HE _ _ X) as (i & z & ? & _). discriminate. }
    split; [split; [|exact I]; split|].
    - apply vp_init; [|discriminate]. eexists. split; [exact SE|]. left. now left.
    - intros x c z Ex Fx. destruct (HE _ _ Ex) as (i & z' & -> & ->). destruct Fx as [[D _]|(m & w & op & l & r & f & X & _)]; [now elim D|discriminate].
    - intros m l z _ X. now elim (NI _ _ X).
    - intros m b c _ X. now elim (NI _ _ X).
    - intros m m' b b' j _ _ X. now elim (NI _ _ X).
    - intros g z Hg V. apply in_map_iff in Hg as ([g' z'] & <- & I'). cbn in *. rewrite (HM _ _ I') in V. injection V as <-.
      exists (LVal z'). split; auto. apply vp_init; [|discriminate]. eexists. split; [exact SE|]. left. right.
      apply in_map_iff. exists (g', z'). auto.
  Qed.
End Sim.
