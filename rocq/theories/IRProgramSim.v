(** Executions of the programs of IRProgramModel.v are followed by valid paths of the
    exploded super-graph: conditions on flow functions under which every marked value
    is a fact. *)
From Coq Require Import List Bool ZArith Arith Lia.
From Verif Require Import Assoc IDESolverModel IDESpec IFDSModel IFDSSpec IRProgramModel IRProgramSpec.
Import ListNotations.

Section Sim.
  Context {N F : Type} {EN : EqDec N} {EF : EqDec F}.
  Local Notation value := (value N F).
  Local Notation env := (@env N F).
  Variable p : prog N F.
  Variable fresh undef arith : bool.
  Variable ext : N -> F -> list cval -> mem -> cval -> mem -> Prop.
  Variable main : F.
  Variable pm : nat -> bool.
  Variable W : flows N F value.
  Variable S0 : list (N * list value).
  Hypothesis WF : prog_wf p.
  Local Notation G := (irICFG p).
  Local Notation valid := (valid G W S0).
  Local Notation eval := (eval undef).

  Definition isCell (v : value) : bool :=
    match v with
    | VInst n => match code p n with IAlloca _ => true | _ => false end
    | VArg _ _ => isPtr p v
    | _ => false
    end.
  Definition isReg (v : value) : bool := match v with VInst _ | VArg _ _ => true | _ => false end.
  Definition isFormal (v : value) : bool := match v with VArg _ _ => isCell v | _ => false end.

  (** where the mark of the result of an instruction comes from *)
  Definition flowsFrom (n : N) : list value :=
    match code p n with
    | ILoad q => [q]
    | ICast v => [v]
    | IGep q idx => q :: (if arith then idx else [])
    | IPhi vs => vs
    | IExtract agg => [agg]
    | IInsert agg v => [agg; v]
    | IOp ops => if arith then ops else []
    | _ => []
    end.
  Definition killed (n : N) (d : value) : Prop :=
    match code p n with IStore _ q => d = q | _ => d = VInst n end.

  (** the facts a call to a function without a body can make others from *)
  Definition source (E : env) (M : mem) (args : list value) (d : value) : Prop :=
    d = VZero \/
    (In d args /\ isCell d = false /\ exists c, E d = Some c /\ marked c = true) \/
    (In d args /\ isCell d = true /\ exists l m, E d = Some (PPtr l, m) /\ marked (M l) = true).
  Definition out (c : N) (f : F) (r : N) (d d' : value) : Prop :=
    In d' (f_ctr W c r d) \/ exists sf, f_sum W c f = Some sf /\ In d' (sf d).

  Record flowsOk : Prop := {
    fw_zero : f_zero W = VZero;
    fw_main : forall sp, entry p main = Some sp ->
      valid [] sp VZero /\ forall i, i < nparams p main -> pm i = true -> valid [] sp (VArg main i);
    fw_normal0 : forall n n', isCall p n = false -> In VZero (f_normal W n n' VZero);
    fw_keep : forall n n' d, isCall p n = false -> isReg d = true -> ~ killed n d ->
      In d (f_normal W n n' d) \/ (isFormal d = false /\ forall u, In d (operands p u) -> u = n);
    fw_from : forall n n' d, In d (flowsFrom n) -> isReg d = true -> In (VInst n) (f_normal W n n' d);
    fw_undef : forall n n', In VUndef (flowsFrom n) -> undef = true -> In (VInst n) (f_normal W n n' VZero);
    fw_fresh : forall n n' b, code p n = IAlloca b -> fresh = true -> In (VInst n) (f_normal W n n' VZero);
    fw_deref : forall n, match code p n with
      | ILoad q => isCell q = true \/ exists g, q = VGlob g
      | IStore v q => isCell q = true \/ exists g k, q = VGlob g /\ v = VConst k
      | _ => True
      end;
    fw_store : forall n n' v q, code p n = IStore v q -> isReg v = true -> isCell v = false -> isCell q = true -> In q (f_normal W n n' v);
    fw_storeUndef : forall n n' q, code p n = IStore VUndef q -> undef = true -> isCell q = true -> In q (f_normal W n n' VZero);
    fw_args : forall c f i a, In f (calleesAt p c) -> entry p f <> None -> nth_error (argsAt p c) i = Some a ->
      isCell a = isCell (VArg f i) /\ (a = VUndef -> undef = false);
    fw_noalias : forall c f i j a, In f (calleesAt p c) -> entry p f <> None -> isCell a = true ->
      nth_error (argsAt p c) i = Some a -> nth_error (argsAt p c) j = Some a -> i = j;
    fw_sum : forall c f, In f (calleesAt p c) -> entry p f <> None -> f_sum W c f = None;
    fw_call0 : forall c f, In f (calleesAt p c) -> entry p f <> None -> In VZero (f_call W c f VZero);
    fw_call : forall c f i a, In f (calleesAt p c) -> entry p f <> None -> nth_error (argsAt p c) i = Some a -> isReg a = true ->
      i < nparams p f -> In (VArg f i) (f_call W c f a);
    fw_ctr0 : forall c r, isCall p c = true -> In VZero (f_ctr W c r VZero);
    fw_ctr : forall c r d, isCall p c = true -> isReg d = true -> (isCell d = true -> ~ In d (argsAt p c)) -> In d (f_ctr W c r d);
    fw_ret : forall c f e r v, In f (calleesAt p c) -> entry p f <> None -> fnOf p e = f -> retVal p e = Some v -> isReg v = true ->
      In (VInst c) (f_ret W c f e r v);
    fw_retUndef : forall e, retVal p e = Some VUndef -> undef = false;
    fw_retCell : forall c f e r i a, In f (calleesAt p c) -> entry p f <> None -> fnOf p e = f -> nth_error (argsAt p c) i = Some a ->
      isCell a = true -> i < nparams p f -> In a (f_ret W c f e r (VArg f i));
    fw_nparams : forall c f, In f (calleesAt p c) -> entry p f <> None -> length (argsAt p c) = nparams p f;
    fw_ext : forall c b fs args f r E cs M x M', code p c = ICall b fs args -> In f fs -> entry p f = None ->
      Forall2 (fun v y => eval E v = Some y) args cs -> ext c f cs M x M' ->
      (forall a y, isCell a = true -> E a = Some y -> marked y = false) -> (forall g, marked (M (LGlob g)) = false) ->
      (marked x = true -> exists d, source E M args d /\ out c f r d (VInst c)) /\
      (forall l, marked (M' l) = true ->
        (exists a, In a args /\ isCell a = true /\ (exists m, E a = Some (PPtr l, m)) /\ exists d, source E M args d /\ out c f r d a) \/
        (marked (M l) = true /\ forall a m, In a args -> isCell a = true -> E a <> Some (PPtr l, m)))
  }.
  Hypothesis OK : flowsOk.

  (** the statement is one of the function called last *)
  Fixpoint inFun (stk : list (N * F)) (n : N) : Prop :=
    match stk with [] => True | (c, f) :: stk' => fnOf p n = f /\ inFun stk' c end.
  Lemma inFun_same stk n n' : fnOf p n' = fnOf p n -> inFun stk n -> inFun stk n'.
  Proof. destruct stk as [|[c f] stk]; cbn; auto. intros ->. auto. Qed.
  Lemma valid_inFun stk n d : valid stk n d -> inFun stk n.
  Proof.
    induction 1; cbn [inFun]; auto.
    - eapply inFun_same; [|eassumption]. eapply (pw_succ p WF); eauto.
    - eapply inFun_same; [|eassumption]. eapply (pw_succ p WF); eauto.
    - eapply inFun_same; [|eassumption]. eapply (pw_succ p WF); eauto.
    - split; auto. cbn in *. destruct (entry p callee) as [sp'|] eqn:E; [|contradiction].
      match goal with H : In _ [_] |- _ => destruct H as [<-|[]] end. eapply (pw_entry p WF); eauto.
    - cbn in *. eapply inFun_same; [|apply IHvalid]. eapply (pw_succ p WF); eauto.
  Qed.

  Definition avail (stk : list (N * F)) (n : N) (d : value) : Prop :=
    valid stk n d \/ (isFormal d = false /\ forall u, In d (operands p u) -> valid stk u d).

  Definition stkOf (K : list (N * F * env)) : list (N * F) := map (fun x => (fst (fst x), snd (fst x))) K.

  Record frameOk (stk : list (N * F)) (n : N) (E : env) (M : mem) (k : nat) (lent : list value) : Prop := {
    fo_zero : valid stk n VZero;
    fo_reg : forall x c, E x = Some c -> marked c = true -> isReg x = true /\ isCell x = false /\ avail stk n x;
    fo_cell : forall x l m, isCell x = true -> ~ In x lent -> E x = Some (PPtr l, m) -> marked (M l) = true -> avail stk n x;
    fo_inj : forall x y l m m', isCell x = true -> isCell y = true -> E x = Some (PPtr l, m) -> E y = Some (PPtr l, m') -> x = y;
    fo_bound : forall x l m, isCell x = true -> E x = Some (PPtr l, m) -> exists j, l = LMem j /\ j < k
  }.
  Definition safe (K : list (N * F * env)) (l : loc) : Prop :=
    forall c f Ec x m, In (c, f, Ec) K -> isCell x = true -> Ec x = Some (PPtr l, m) -> In x (argsAt p c).
  Definition allSafe (E : env) (K : list (N * F * env)) : Prop :=
    forall x l m, isCell x = true -> E x = Some (PPtr l, m) -> safe K l.
  Fixpoint stackOk (E : env) (K : list (N * F * env)) (M : mem) (k : nat) : Prop :=
    match K with
    | [] => True
    | (c, f, Ec) :: K' =>
        isCall p c = true /\ In f (calleesAt p c) /\ entry p f <> None /\
        (forall i a, nth_error (argsAt p c) i = Some a -> isCell a = true -> E (VArg f i) = Ec a) /\
        frameOk (stkOf K') c Ec M k (argsAt p c) /\ allSafe Ec K' /\ stackOk Ec K' M k
    end.
  Definition inv (s : conf) : Prop :=
    let '(n, E, K, M, k) := s in
    frameOk (stkOf K) n E M k [] /\ allSafe E K /\ stackOk E K M k /\ forall g, marked (M (LGlob g)) = false.

  Lemma cell_reg x : isCell x = true -> isReg x = true.
  Proof. destruct x; cbn; auto; discriminate. Qed.
  Lemma formal_cell x : isFormal x = true -> isCell x = true.
  Proof. destruct x; cbn; auto; discriminate. Qed.
  Lemma eval_reg E x : isReg x = true -> eval E x = E x.
  Proof. destruct x; cbn; auto; discriminate. Qed.
  Lemma eval_marked E x c : eval E x = Some c -> marked c = true -> (isReg x = true /\ E x = Some c) \/ (x = VUndef /\ undef = true).
  Proof. destruct x; cbn; intros H Hm; try discriminate; auto; inversion H; subst; cbn in Hm; auto; discriminate. Qed.
  Lemma G_call n : isCallSite G n = isCall p n. Proof. reflexivity. Qed.

  Lemma avail_use stk n d : avail stk n d -> In d (operands p n) -> valid stk n d.
  Proof. intros [H|[_ H]] I0; auto. Qed.

  Lemma normal_step stk n n' d d' : valid stk n d -> isCall p n = false -> In n' (succs p n) -> In d' (f_normal W n n' d) ->
    valid stk n' d'.
  Proof. intros; eapply v_normal; eauto. Qed.
  Lemma zero_step stk n n' : valid stk n VZero -> isCall p n = false -> In n' (succs p n) -> valid stk n' VZero.
  Proof. intros; eapply normal_step; eauto. now apply (fw_normal0 OK). Qed.
  Lemma avail_step stk n n' d : avail stk n d -> isCall p n = false -> In n' (succs p n) -> isReg d = true -> ~ killed n d ->
    avail stk n' d.
  Proof.
    intros [H|H] Hc Hs Hr Hk; [|now right].
    destruct (fw_keep OK n n' d Hc Hr Hk) as [K|[K1 K2]].
    - left. eapply normal_step; eauto.
    - right. split; auto. intros u Hu. now rewrite (K2 u Hu).
  Qed.
  Lemma avail_ctr stk c r d : avail stk c d -> isCall p c = true -> In r (succs p c) -> isReg d = true ->
    (isCell d = true -> ~ In d (argsAt p c)) -> avail stk r d.
  Proof.
    intros [H|H] Hc Hs Hr Hk; [|now right]. left. eapply v_ctr; eauto. now apply (fw_ctr OK).
  Qed.
  Lemma zero_ctr stk c r : valid stk c VZero -> isCall p c = true -> In r (succs p c) -> valid stk r VZero.
  Proof. intros; eapply v_ctr; eauto. now apply (fw_ctr0 OK). Qed.

  Lemma upd_same (E : env) x c : upd E x c x = Some c.
  Proof. unfold upd. now destruct (eq_dec x x). Qed.
  Lemma upd_other (E : env) x c y : x <> y -> upd E x c y = E y.
  Proof. unfold upd. now destruct (eq_dec x y). Qed.
  Lemma write_same M l c : write M l c l = c.
  Proof. unfold write. now destruct (eq_dec l l). Qed.
  Lemma write_other M l c l' : l <> l' -> write M l c l' = M l'.
  Proof. unfold write. now destruct (eq_dec l l'). Qed.

  Lemma frame_mem stk n E M M' k k' lent :
    frameOk stk n E M k lent -> k <= k' ->
    (forall x l m, isCell x = true -> ~ In x lent -> E x = Some (PPtr l, m) -> marked (M' l) = true -> marked (M l) = true) ->
    frameOk stk n E M' k' lent.
  Proof.
    intros [Z R C I0 B] L H. constructor; auto.
    - intros x l m Hx Hn He Hm. eapply C; eauto.
    - intros x l m Hx He. destruct (B x l m Hx He) as (j & -> & Hj). exists j; split; auto; lia.
  Qed.
  Lemma safe_tl x K l : safe (x :: K) l -> safe K l.
  Proof. intros H c f Ec y m HI. apply (H c f Ec y m). now right. Qed.
  Lemma stack_mem E K M M' k k' :
    stackOk E K M k -> k <= k' -> (forall l, marked (M' l) = true -> marked (M l) = true \/ safe K l) -> stackOk E K M' k'.
  Proof.
    revert E. induction K as [|[[c f] Ec] K IH]; cbn; auto.
    intros E (A & B & B' & Cc & Df & Ea & Sf) L H.
    refine (conj A (conj B (conj B' (conj Cc (conj _ (conj Ea _)))))).
    - eapply frame_mem; eauto. intros x l m Hx Hn He Hm. destruct (H l Hm) as [H0|H0]; auto.
      destruct Hn. eapply (H0 c f Ec x m); cbn; auto.
    - apply IH; auto. intros l Hl. destruct (H l Hl); auto. right. eapply safe_tl; eauto.
  Qed.
  Lemma stack_env E E' K M k : stackOk E K M k -> (forall f i, E' (VArg f i) = E (VArg f i)) -> stackOk E' K M k.
  Proof.
    destruct K as [|[[c f] Ec] K]; cbn; auto.
    intros (A & B & B' & Cc & D) H. refine (conj A (conj B (conj B' (conj _ D)))).
    intros i a H1 H2. rewrite H. auto.
  Qed.
  Lemma stack_bound E K M k : stackOk E K M k -> safe K (LMem k).
  Proof.
    revert E. induction K as [|[[c f] Ec] K IH]; cbn; [intros E _ c f Ec x m []|].
    intros E (A & B & B' & Cc & Df & Ea & Sf) c0 f0 Ec0 x m [HI|HI] Hx He.
    - inversion HI; subst. destruct (fo_bound _ _ _ _ _ _ Df _ _ _ Hx He) as (j & Hj & Hl). inversion Hj; lia.
    - eapply IH; eauto.
  Qed.

  (** an instruction that defines its register and leaves memory alone *)
  Lemma frame_def stk n n' E M k c :
    frameOk stk n E M k [] -> isCall p n = false -> In n' (succs p n) ->
    isCell (VInst n) = false -> (match code p n with IStore _ _ => False | _ => True end) ->
    (marked c = true -> valid stk n' (VInst n)) ->
    frameOk stk n' (upd E (VInst n) c) M k [].
  Proof.
    intros [Z R C I0 B] Hc Hs Hn Hst Hm. constructor.
    - eapply zero_step; eauto.
    - intros x y Hx My. unfold upd in Hx. destruct (eq_dec (VInst n) x) as [<-|Hne].
      + inversion Hx; subst. repeat split; auto. left; auto.
      + destruct (R x y Hx My) as (R1 & R2 & R3). repeat split; auto.
        eapply avail_step; eauto. unfold killed. destruct (code p n); auto.
    - intros x l m Hx _ Hu Ml. unfold upd in Hu. destruct (eq_dec (VInst n) x) as [<-|Hne]; [congruence|].
      eapply avail_step; eauto using cell_reg. unfold killed. destruct (code p n); auto.
    - intros x y l m m' Hx Hy. unfold upd.
      destruct (eq_dec (VInst n) x) as [<-|]; [congruence|]. destruct (eq_dec (VInst n) y) as [<-|]; [congruence|]. eauto.
    - intros x l m Hx. unfold upd. destruct (eq_dec (VInst n) x) as [<-|]; [congruence|]. eauto.
  Qed.
  Lemma safe_def E K n c : allSafe E K -> isCell (VInst n) = false -> allSafe (upd E (VInst n) c) K.
  Proof. intros A Hn x l m Hx. unfold upd. destruct (eq_dec (VInst n) x) as [<-|]; [congruence|]. eauto. Qed.
  Lemma inv_def n n' E K M k c :
    inv (n, E, K, M, k) -> isCall p n = false -> In n' (succs p n) ->
    isCell (VInst n) = false -> (match code p n with IStore _ _ => False | _ => True end) ->
    (marked c = true -> valid (stkOf K) n' (VInst n)) ->
    inv (n', upd E (VInst n) c, K, M, k).
  Proof.
    intros (A & B & D & Q) Hc Hs Hn Hst Hm. refine (conj _ (conj _ (conj _ Q))).
    - eapply frame_def; eauto.
    - now eapply safe_def.
    - eapply stack_env; [exact D|]. intros; apply upd_other; discriminate.
  Qed.

  Lemma computes_from n E c : computes undef arith E (code p n) c -> marked c = true ->
    exists d cd, In d (flowsFrom n) /\ eval E d = Some cd /\ marked cd = true.
  Proof.
    assert (Ex : forall vs cs, evals undef E vs cs -> existsb marked cs = true ->
               exists d cd, In d vs /\ eval E d = Some cd /\ marked cd = true).
    { induction 1 as [|v c0 vs cs Hv _ IH]; cbn; [discriminate|].
      intros H0. apply orb_true_iff in H0. destruct H0 as [H0|H0].
      - exists v, c0; auto.
      - destruct (IH H0) as (d & cd & Hd & X); exists d, cd; auto. }
    unfold flowsFrom. intros H Hm. inversion H as [v c0 He|q idx pl m cs He Hi|vs v c0 Hi He|agg c0 He|agg v pl m c0 H1 H2|ops cs pl He Hp]; subst; cbn in *.
    - exists v, c; auto.
    - apply orb_true_iff in Hm. destruct Hm as [->|Hm]; [exists q, (pl, true); auto|].
      apply andb_true_iff in Hm. destruct Hm as [-> Hm]. destruct (Ex _ _ Hi Hm) as (d & cd & Hd & X). exists d, cd; cbn; auto.
    - exists v, c; auto.
    - exists agg, c; auto.
    - apply orb_true_iff in Hm. destruct Hm as [->|Hm]; [exists agg, (pl, true); auto|exists v, c0; auto].
    - apply andb_true_iff in Hm. destruct Hm as [-> Hm]. destruct (Ex _ _ He Hm) as (d & cd & Hd & X). exists d, cd; auto.
  Qed.
  Lemma from_operands n d : In d (flowsFrom n) -> In d (operands p n).
  Proof.
    unfold flowsFrom, operands. destruct (code p n); auto; try contradiction; destruct arith; cbn; tauto.
  Qed.
  Lemma from_marked n n' K E M k d cd : frameOk (stkOf K) n E M k [] -> isCall p n = false -> In n' (succs p n) ->
    In d (flowsFrom n) -> eval E d = Some cd -> marked cd = true -> valid (stkOf K) n' (VInst n).
  Proof.
    intros A Hc Hs Hd He Hm. destruct (eval_marked _ _ _ He Hm) as [[Hr He']|[-> Hu]].
    - destruct (fo_reg _ _ _ _ _ _ A _ _ He' Hm) as (_ & _ & V).
      eapply normal_step; [eapply avail_use; [exact V|now apply from_operands]|auto|auto|]. now apply (fw_from OK).
    - eapply normal_step; [apply (fo_zero _ _ _ _ _ _ A)|auto|auto|]. now apply (fw_undef OK).
  Qed.

  Lemma inv_start sp E M : entry p main = Some sp ->
    (forall x c, E x = Some c -> exists i z, i < nparams p main /\ x = VArg main i /\ c = (PInt z, pm i)) ->
    (forall g, exists z, M (LGlob g) = (PInt z, false)) -> (forall i, pm i = true -> isPtr p (VArg main i) = false) ->
    inv (sp, E, [], M, 0).
  Proof.
    intros Hs HE HM Hp. destruct (fw_main OK sp Hs) as [V0 V1].
    refine (conj _ (conj _ (conj Logic.I _))).
    - constructor; auto.
      + intros x c Hx Hm. destruct (HE x c Hx) as (i & z & Hi & -> & ->). cbn in Hm |- *. split; [auto|]. split; [auto|]. left; auto.
      + intros x l m _ _ Hx. destruct (HE _ _ Hx) as (i & z & _ & _ & [=]).
      + intros x y l m m' _ _ Hx. destruct (HE _ _ Hx) as (i & z & _ & _ & [=]).
      + intros x l m _ Hx. destruct (HE _ _ Hx) as (i & z & _ & _ & [=]).
    - intros x l m _ Hx. destruct (HE _ _ Hx) as (i & z & _ & _ & [=]).
    - intros g. destruct (HM g) as [z ->]. reflexivity.
  Qed.

  Lemma inv_alloca n n' E K M k b u : inv (n, E, K, M, k) -> code p n = IAlloca b -> In n' (succs p n) ->
    inv (n', upd E (VInst n) (PPtr (LMem k), false), K, write M (LMem k) (PInt u, fresh), S k).
  Proof.
    intros (A & B & D & Q) Hn Hs. assert (Hc : isCall p n = false) by (unfold isCall; now rewrite Hn).
    assert (Cn : isCell (VInst n) = true) by (cbn; now rewrite Hn).
    assert (KN : forall d, d <> VInst n -> ~ killed n d) by (intros d Hd; unfold killed; now rewrite Hn).
    pose proof A as [Z R C I0 Bd].
    refine (conj _ (conj _ (conj _ _))).
    - constructor.
      + eapply zero_step; eauto.
      + intros x c Hx Hm. unfold upd in Hx. destruct (eq_dec (VInst n) x) as [<-|Hne].
        * inversion Hx; subst. discriminate.
        * destruct (R x c Hx Hm) as (R1 & R2 & R3). repeat split; auto. eapply avail_step; eauto.
      + intros x l m Hx _ Hu Hm. unfold upd in Hu. destruct (eq_dec (VInst n) x) as [<-|Hne].
        * inversion Hu; subst. rewrite write_same in Hm. cbn in Hm. left.
          eapply normal_step; eauto. eapply (fw_fresh OK); eauto.
        * destruct (Bd _ _ _ Hx Hu) as (j & -> & Hj). rewrite write_other in Hm by (intros [=]; lia).
          eapply avail_step; eauto using cell_reg. 
      + intros x y l m m' Hx Hy H1 H2. unfold upd in H1, H2.
        destruct (eq_dec (VInst n) x) as [<-|], (eq_dec (VInst n) y) as [<-|]; auto; eauto.
        * inversion H1; subst. destruct (Bd _ _ _ Hy H2) as (j & [=] & Hj). lia.
        * inversion H2; subst. destruct (Bd _ _ _ Hx H1) as (j & [=] & Hj). lia.
      + intros x l m Hx H1. unfold upd in H1. destruct (eq_dec (VInst n) x) as [<-|].
        * inversion H1; subst. exists k; auto.
        * destruct (Bd _ _ _ Hx H1) as (j & -> & Hj). exists j; auto.
    - intros x l m Hx H1. unfold upd in H1. destruct (eq_dec (VInst n) x) as [<-|].
      + inversion H1; subst. eapply stack_bound; eauto.
      + eapply B; eauto.
    - eapply stack_env; [eapply stack_mem; [exact D|auto|]|].
      + intros l Hl. unfold write in Hl. destruct (eq_dec (LMem k) l) as [<-|]; auto. right. eapply stack_bound; eauto.
      + intros; apply upd_other; discriminate.
    - intros g. rewrite write_other by discriminate. auto.
  Qed.

  Lemma inv_store n n' E K M k v q l m c : inv (n, E, K, M, k) -> code p n = IStore v q -> In n' (succs p n) ->
    eval E q = Some (PPtr l, m) -> eval E v = Some c -> inv (n', E, K, write M l c, k).
  Proof.
    intros (A & B & D & Q) Hn Hs Hq Hv. assert (Hc : isCall p n = false) by (unfold isCall; now rewrite Hn).
    pose proof (fw_deref OK n) as Dr. rewrite Hn in Dr.
    assert (Op : forall d, d = v \/ d = q -> In d (operands p n)) by (unfold operands; rewrite Hn; cbn; intuition).
    pose proof A as [Z R C I0 Bd].
    assert (KN : forall d, d <> q -> ~ killed n d) by (intros d Hd; unfold killed; now rewrite Hn).
    destruct Dr as [Cq|(g & k0 & -> & ->)].
    - rewrite eval_reg in Hq by now apply cell_reg.
      assert (Sl : safe K l) by (eapply B; eauto).
      refine (conj _ (conj B (conj _ _))).
      + constructor; auto.
        * eapply zero_step; eauto.
        * intros x c0 Hx Hm. destruct (R x c0 Hx Hm) as (R1 & R2 & R3). repeat split; auto.
          eapply avail_step; eauto. apply KN. congruence.
        * intros x l' m' Hx _ He Hm. unfold write in Hm. destruct (eq_dec l l') as [<-|Hne].
          -- assert (x = q) by eauto. subst x. left.
             destruct (eval_marked _ _ _ Hv Hm) as [[Hr Hv']|[-> Hu]].
             ++ destruct (R v c Hv' Hm) as (_ & NC & V). eapply normal_step; [eapply avail_use; [exact V|auto]|auto|auto|].
                eapply (fw_store OK); eauto.
             ++ eapply normal_step; [exact Z|auto|auto|]. eapply (fw_storeUndef OK); eauto.
          -- eapply avail_step; eauto using cell_reg. apply KN. congruence.
      + eapply stack_mem; [exact D|auto|]. intros l' Hl. unfold write in Hl. destruct (eq_dec l l') as [<-|]; auto.
      + intros g. destruct (Bd _ _ _ Cq Hq) as (j & -> & _). rewrite write_other by discriminate. auto.
    - cbn in Hq, Hv. inversion Hq; inversion Hv; subst.
      assert (HM : forall l, marked (write M (LGlob g) (PInt (Z.of_nat k0), false) l) = true -> marked (M l) = true).
      { intros l. unfold write. destruct (eq_dec (LGlob g) l); auto. discriminate. }
      refine (conj _ (conj B (conj _ _))).
      + constructor; auto.
        * eapply zero_step; eauto.
        * intros x c0 Hx Hm. destruct (R x c0 Hx Hm) as (R1 & R2 & R3). repeat split; auto.
          eapply avail_step; eauto. apply KN. intros ->. discriminate.
        * intros x l' m' Hx _ He Hm. eapply avail_step; eauto using cell_reg. apply KN. intros ->. discriminate.
      + eapply stack_mem; [exact D|auto|]. auto.
      + intros g0. specialize (HM (LGlob g0)). destruct (marked (write _ _ _ _)); auto. rewrite Q in HM. symmetry; auto.
  Qed.

  Lemma inv_load n n' E K M k q l m : inv (n, E, K, M, k) -> code p n = ILoad q -> In n' (succs p n) ->
    eval E q = Some (PPtr l, m) -> inv (n', upd E (VInst n) (fst (M l), m || marked (M l)), K, M, k).
  Proof.
    intros I0 Hn Hs Hq. assert (Hc : isCall p n = false) by (unfold isCall; now rewrite Hn).
    pose proof (fw_deref OK n) as Dr. rewrite Hn in Dr.
    pose proof I0 as (A & B & D & Q).
    eapply inv_def; eauto; [cbn; now rewrite Hn|now rewrite Hn|].
    cbn [marked snd]. intros Hm. apply orb_true_iff in Hm.
    assert (Fq : In q (flowsFrom n)) by (unfold flowsFrom; rewrite Hn; cbn; auto).
    destruct Hm as [->|Hm].
    - eapply from_marked; eauto.
    - destruct Dr as [Cq|(g & ->)].
      + rewrite eval_reg in Hq by now apply cell_reg.
        eapply normal_step; [eapply avail_use; [|now apply from_operands; eauto]|auto|auto|].
        * eapply (fo_cell _ _ _ _ _ _ A); eauto.
        * apply (fw_from OK); auto using cell_reg.
      + cbn in Hq. inversion Hq; subst. rewrite Q in Hm. discriminate.
  Qed.

  Lemma inv_call n E K M k b fs args f sp E' cs : inv (n, E, K, M, k) ->
    code p n = ICall b fs args -> In f fs -> entry p f = Some sp -> length args = nparams p f -> evals undef E args cs ->
    (forall x, E' x = match x with VArg g i => if eq_dec f g then nth_error cs i else None | _ => None end) ->
    inv (sp, E', (n, f, E) :: K, M, k).
  Proof.
    intros (A & B & D & Q) Hn Hf He Hl Hcs HE'.
    assert (Hc : isCall p n = true) by (unfold isCall; now rewrite Hn).
    assert (Hfc : In f (calleesAt p n)) by (unfold calleesAt; now rewrite Hn).
    assert (Ha : argsAt p n = args) by (unfold argsAt; now rewrite Hn).
    assert (Hb : entry p f <> None) by congruence.
    assert (Hop : operands p n = args) by (unfold operands; now rewrite Hn).
    pose proof A as [Z R C I0 Bd].
    (* a formal has the value of its argument *)
    assert (Arg : forall x c, E' x = Some c -> exists i a, x = VArg f i /\ nth_error (argsAt p n) i = Some a /\ eval E a = Some c /\ i < nparams p f).
    { intros x c Hx. rewrite HE' in Hx. destruct x as [| | | |g i|]; try discriminate. destruct (eq_dec f g) as [<-|]; [|discriminate].
      assert (X : exists a, nth_error args i = Some a /\ eval E a = Some c).
      { clear - Hcs Hx. revert i Hx. induction Hcs as [|v c0 vs cs Hv _ IH]; intros [|i] Hx; cbn in *; try discriminate.
        - inversion Hx; subst. eauto.
        - eauto. }
      destruct X as (a & Hna & Hev). exists i, a. rewrite Ha. repeat split; auto.
      rewrite <- Hl. apply nth_error_Some. congruence. }
    assert (Arg' : forall i a, nth_error (argsAt p n) i = Some a -> E' (VArg f i) = eval E a).
    { intros i a Hi. rewrite Ha in Hi. rewrite HE'. destruct (eq_dec f f) as [_|]; [|congruence].
      clear - Hcs Hi. revert i Hi. induction Hcs as [|v c0 vs cs Hv _ IH]; intros [|i] Hi; cbn in *; try discriminate.
      - inversion Hi; subst. auto.
      - eauto. }
    assert (Cell : forall x l m, isCell x = true -> E' x = Some (PPtr l, m) ->
              exists i a, x = VArg f i /\ nth_error (argsAt p n) i = Some a /\ isCell a = true /\ E a = Some (PPtr l, m) /\ i < nparams p f).
    { intros x l m Hx Hx'. destruct (Arg _ _ Hx') as (i & a & -> & Hi & Hev & Hlt).
      destruct (fw_args OK n f i a Hfc Hb Hi) as [Hca _]. rewrite Hx in Hca.
      rewrite eval_reg in Hev by now apply cell_reg. eauto 10. }
    assert (Pass : forall i a, nth_error (argsAt p n) i = Some a -> isReg a = true -> i < nparams p f -> valid (stkOf K) n a ->
              valid ((n, f) :: stkOf K) sp (VArg f i)).
    { intros i a Hi Hr Hlt V. eapply v_call; [exact V|exact Hc|exact Hfc|now apply (fw_sum OK)| |].
      - cbn. rewrite He. now left.
      - eapply (fw_call OK); eauto. }
    assert (Hin : forall i a, nth_error (argsAt p n) i = Some a -> In a (operands p n)).
    { intros i a Hi. rewrite Hop, <- Ha. eapply nth_error_In; eauto. }
    refine (conj _ (conj _ (conj _ Q))).
    - constructor.
      + eapply v_call; [exact Z|exact Hc|exact Hfc|now apply (fw_sum OK)| |now apply (fw_call0 OK)]. cbn. rewrite He. now left.
      + intros x c Hx Hm. destruct (Arg _ _ Hx) as (i & a & -> & Hi & Hev & Hlt).
        destruct (fw_args OK n f i a Hfc Hb Hi) as [Hca Hu].
        destruct (eval_marked _ _ _ Hev Hm) as [[Hr Hev']|[-> Hu']]; [|rewrite Hu in Hu' by auto; discriminate].
        destruct (R a c Hev' Hm) as (R1 & R2 & R3). repeat split; [congruence|].
        left. eapply Pass; eauto using avail_use.
      + intros x l m Hx _ Hx' Hm. destruct (Cell x l m Hx Hx') as (i & a & -> & Hi & Hca & Hev & Hlt).
        left. eapply Pass; eauto using avail_use, cell_reg.
      + intros x y l m m' Hx Hy H1 H2.
        destruct (Cell x l m Hx H1) as (i & a & -> & Hi & Hca & Hev & Hlt).
        destruct (Cell y l m' Hy H2) as (j & a' & -> & Hj & Hca' & Hev' & Hlt').
        assert (a = a') by eauto. subst a'. f_equal. eapply (fw_noalias OK n f i j a); eauto.
      + intros x l m Hx H1. destruct (Cell x l m Hx H1) as (i & a & -> & Hi & Hca & Hev & Hlt). eauto.
    - intros x l m Hx H1. destruct (Cell x l m Hx H1) as (i & a & -> & Hi & Hca & Hev & Hlt).
      intros c0 f0 Ec0 y m0 [HI|HI] Hy Hy'.
      + inversion HI; subst c0 f0 Ec0. assert (y = a) by eauto. subst y. eapply nth_error_In; eauto.
      + exact (B a l m Hca Hev c0 f0 Ec0 y m0 HI Hy Hy').
    - cbn. refine (conj Hc (conj Hfc (conj Hb (conj _ (conj _ (conj B D)))))).
      + intros i a Hi Hca. rewrite (Arg' i a Hi). apply eval_reg. now apply cell_reg.
      + constructor; auto. intros x l m Hx _. eauto.
  Qed.

  (** back in the caller *)
  Lemma inv_ret n r E c f Ec K M k E' : inv (n, E, (c, f, Ec) :: K, M, k) ->
    (exists v, code p n = IRet v) -> In r (succs p c) ->
    (E' = Ec \/ exists x, E' = upd Ec (VInst c) x /\ (marked x = true -> valid (stkOf K) r (VInst c))) ->
    inv (r, E', K, M, k).
  Proof.
    intros (A & B & D & Q) [rv Hn] Hr HE. cbn in D. destruct D as (Hc & Hf & Hb & Lk & Fc & Sf & St).
    pose proof Fc as [Z R C I0 Bd]. cbn [stkOf map fst snd] in A. fold (stkOf K) in A.
    assert (Cc : isCell (VInst c) = false) by (cbn; unfold isCall in Hc; now destruct (code p c)).
    assert (Cells : forall x, isCell x = true -> E' x = Ec x).
    { intros x Hx. destruct HE as [->|(y & -> & _)]; auto. apply upd_other. congruence. }
    assert (Hnc : isCall p n = false) by (unfold isCall; now rewrite Hn).
    refine (conj _ (conj _ (conj _ Q))).
    - constructor.
      + eapply zero_ctr; eauto.
      + intros x y Hx Hm.
        assert (Old : Ec x = Some y -> isReg x = true /\ isCell x = false /\ avail (stkOf K) r x).
        { intros Hy. destruct (R x y Hy Hm) as (R1 & R2 & R3). repeat split; auto. eapply avail_ctr; eauto. congruence. }
        destruct HE as [->|(z & -> & Hz)]; auto.
        unfold upd in Hx. destruct (eq_dec (VInst c) x) as [<-|]; auto. inversion Hx; subst. repeat split; auto. left; auto.
      + intros x l m Hx _ Hu Hm. rewrite Cells in Hu by auto.
        destruct (in_dec eq_dec x (argsAt p c)) as [Hin|Hin].
        * destruct (In_nth_error _ _ Hin) as [i Hi]. pose proof (Lk i x Hi Hx) as Hl.
          assert (Hfc : isCell (VArg f i) = true) by (destruct (fw_args OK c f i x Hf Hb Hi) as [<- _]; auto).
          left. eapply v_ret; [|exact Hnc| |exact Hr|].
          -- destruct (fo_cell _ _ _ _ _ _ A (VArg f i) l m) as [V|[V _]]; auto; [now rewrite Hl|exact V|].
             cbn in V, Hfc. congruence.
          -- cbn. now rewrite Hn.
          -- eapply (fw_retCell OK); eauto; [apply (valid_inFun _ _ _ (fo_zero _ _ _ _ _ _ A))|]. rewrite <- (fw_nparams OK c f Hf Hb). apply nth_error_Some. congruence.
        * eapply avail_ctr; eauto using cell_reg.
      + intros x y l m m' Hx Hy. rewrite !Cells by auto. eauto.
      + intros x l m Hx. rewrite Cells by auto. eauto.
    - intros x l m Hx. rewrite Cells by auto. eauto.
    - eapply stack_env; eauto. intros g i. destruct HE as [->|(y & -> & _)]; auto.
  Qed.

  Lemma source_valid stk n E M k args d : frameOk stk n E M k [] -> operands p n = args -> source E M args d -> valid stk n d.
  Proof.
    intros [Z R C I0 Bd] Ho [->|[(Hi & Hc & c & He & Hm)|(Hi & Hc & l & m & He & Hm)]]; auto.
    - destruct (R d c He Hm) as (_ & _ & V). eapply avail_use; eauto. now rewrite Ho.
    - eapply avail_use; [eapply C; eauto|]. now rewrite Ho.
  Qed.
  Lemma out_valid stk c f r d d' : valid stk c d -> isCall p c = true -> In f (calleesAt p c) -> In r (succs p c) ->
    out c f r d d' -> valid stk r d'.
  Proof.
    intros V Hc Hf Hr [H|(sf & H1 & H2)]; [eapply v_ctr; eauto|eapply v_summary; eauto].
  Qed.

  Lemma inv_extern n n' E K M k b fs args f cs x M' : inv (n, E, K, M, k) ->
    code p n = ICall b fs args -> In f fs -> entry p f = None -> In n' (succs p n) -> evals undef E args cs -> ext n f cs M x M' ->
    inv (n', upd E (VInst n) x, K, M', k).
  Proof.
    intros (A & B & D & Q) Hn Hf He Hs Hcs Hx.
    assert (Hc : isCall p n = true) by (unfold isCall; now rewrite Hn).
    assert (Hfc : In f (calleesAt p n)) by (unfold calleesAt; now rewrite Hn).
    assert (Ha : argsAt p n = args) by (unfold argsAt; now rewrite Hn).
    assert (Hop : operands p n = args) by (unfold operands; now rewrite Hn).
    assert (Cn : isCell (VInst n) = false) by (cbn; now rewrite Hn).
    pose proof A as [Z R C I0 Bd].
    destruct (fw_ext OK n b fs args f n' E cs M x M' Hn Hf He Hcs Hx) as [X1 X2]; auto.
    { intros a y Hca Hy. destruct (marked y) eqn:Hm; auto. destruct (R a y Hy Hm) as (_ & R2 & _). congruence. }
    assert (Cells : forall y, isCell y = true -> upd E (VInst n) x y = E y) by (intros y Hy; apply upd_other; congruence).
    refine (conj _ (conj _ (conj _ _))).
    - constructor.
      + eapply zero_ctr; eauto.
      + intros y c Hy Hm. unfold upd in Hy. destruct (eq_dec (VInst n) y) as [<-|Hne].
        * inversion Hy; subst. repeat split; auto. left. destruct (X1 Hm) as (d & Sd & Od).
          eapply out_valid; [eapply source_valid; eauto|exact Hc|exact Hfc|exact Hs|exact Od].
        * destruct (R y c Hy Hm) as (R1 & R2 & R3). repeat split; auto. eapply avail_ctr; eauto. congruence.
      + intros y l m Hy _ Hu Hm. rewrite Cells in Hu by auto. destruct (X2 l Hm) as [(a & Hi & Hca & (m' & Ea) & d & Sd & Od)|[H1 H2]].
        * assert (y = a) by eauto. subst y. left. eapply out_valid; [eapply source_valid; eauto|exact Hc|exact Hfc|exact Hs|exact Od].
        * eapply avail_ctr; eauto using cell_reg. intros _ Hin. rewrite Ha in Hin. eapply H2; eauto.
      + intros y z l m m' Hy Hz. rewrite !Cells by auto. eauto.
      + intros y l m Hy. rewrite Cells by auto. eauto.
    - intros y l m Hy. rewrite Cells by auto. eauto.
    - eapply stack_env; [eapply stack_mem; [exact D|auto|]|].
      + intros l Hl. destruct (X2 l Hl) as [(a & Hi & Hca & (m' & Ea) & _)|[H1 _]]; auto. right. eapply B; eauto.
      + intros; apply upd_other; discriminate.
    - intros g. destruct (marked (M' (LGlob g))) eqn:Hg; auto. destruct (X2 _ Hg) as [(a & Hi & Hca & (m' & Ea) & _)|[H1 _]].
      + destruct (Bd _ _ _ Hca Ea) as (j & [=] & _).
      + now rewrite Q in H1.
  Qed.

  Lemma inv_step s s' : step p fresh undef arith ext s s' -> inv s -> inv s'.
  Proof.
    intros H I0. destruct H.
    - eapply inv_alloca; eauto.
    - eapply inv_store; eauto.
    - eapply inv_load; eauto.
    - assert (X : (match code p n with IStore _ _ => False | _ => True end) /\ isCall p n = false /\ isCell (VInst n) = false).
      { cbn. unfold isCall. match goal with C : computes _ _ _ _ _ |- _ => inversion C; auto end. }
      destruct X as (X1 & X2 & X3). eapply inv_def; eauto. intros Hm.
      match goal with C : computes _ _ _ _ _ |- _ => destruct (computes_from _ _ _ C Hm) as (d & cd & Hd & He & Hmd) end.
      eapply from_marked; eauto. apply I0.
    - eapply inv_call; eauto.
    - eapply inv_extern; eauto.
    - eapply inv_ret; eauto. right. eexists; split; [reflexivity|]. intros Hm.
      pose proof I0 as (A & B & D & Q). cbn in D. destruct D as (Hc & Hf & Hb & _).
      assert (Hrv : retVal p n = Some v) by (unfold retVal; now rewrite H).
      destruct (eval_marked _ _ _ H1 Hm) as [[Hr Hev]|[-> Hu]].
      + destruct (fo_reg _ _ _ _ _ _ A _ _ Hev Hm) as (_ & _ & V).
        eapply v_ret; [eapply avail_use; [exact V|]|unfold isCall; cbn; unfold isCall; now rewrite H|cbn; now rewrite H|eauto|].
        * unfold operands. rewrite H. now left.
        * apply (fw_ret OK); auto. apply (valid_inFun _ _ _ (fo_zero _ _ _ _ _ _ A)).
      + rewrite (fw_retUndef OK n) in Hu; auto. discriminate.
    - eapply inv_ret; eauto.
  Qed.

  Hypothesis MainArgs : forall i, pm i = true -> isPtr p (VArg main i) = false.

  Theorem exec_inv s : exec p fresh undef arith ext main pm s -> inv s.
  Proof. induction 1; [eapply inv_start; eauto|eapply inv_step; eauto]. Qed.

  (** every marked operand, and every operand that is the address of a variable with
      a marked value, is a fact in front of the instruction *)
  Theorem marked_valid n E K M k v : exec p fresh undef arith ext main pm (n, E, K, M, k) -> In v (operands p n) ->
    isReg v = true ->
    (exists c, E v = Some c /\ marked c = true) \/ (isCell v = true /\ exists l m, E v = Some (PPtr l, m) /\ marked (M l) = true) ->
    valid (stkOf K) n v.
  Proof.
    intros He Hi Hr H. apply exec_inv in He. destruct He as (A & _). destruct H as [(c & Hc & Hm)|(Hcell & l & m & Hl & Hm)].
    - destruct (fo_reg _ _ _ _ _ _ A _ _ Hc Hm) as (_ & _ & V). eapply avail_use; eauto.
    - eapply avail_use; eauto. eapply (fo_cell _ _ _ _ _ _ A); eauto.
  Qed.
  Theorem zero_valid n E K M k : exec p fresh undef arith ext main pm (n, E, K, M, k) -> valid (stkOf K) n VZero.
  Proof. intros He. apply exec_inv in He. apply He. Qed.
End Sim.
