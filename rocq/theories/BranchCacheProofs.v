(** The table Z3Expr does not change any constraint: proofs that the handlers
    agree with versions without it. *)
From Coq Require Import String List Bool Arith ZArith Lia.
From Verif Require Import Assoc BranchConstraintModel.
Import ListNotations.

Section Pure.
  Variable defs : nat -> def.
  Variable isDbg : nat -> bool.
  Variable blockOf : nat -> nat.
  Variable insts : nat -> list nat.
  Variable varName gepName : nat -> string.
  Variable fnName : nat -> option string.
  Variable fnRet : nat -> ty.
  Variable ignoreDbg : bool.

  Definition pAlloca (v : nat) (t : ty) : out cav := obind (constOf (varName v) t OFatal) (fun e => ORet (e, [v])).
  Definition pGep (v : nat) (t : ty) : out cav :=
    obind (constOf (gepName v) t (ORet (EVar (gepName v) SBV))) (fun e => ORet (e, [v])).
  Fixpoint pTrack (fuel : nat) (w : list nat) : out cav :=
    match fuel with
    | 0 => ONoFuel
    | S f =>
        match w with
        | [] => OFatal
        | v :: w' =>
            match defs v with
            | DAlloca t => pAlloca v t
            | DGep t _ => pGep v t
            | _ => pTrack f (rev (operands defs v) ++ w')
            end
        end
    end.
  Definition pLoad (fuel v p : nat) : out cav :=
    match defs p with
    | DAlloca t => pAlloca p t
    | DGep t _ => pGep p t
    | _ => pTrack fuel [v]
    end.
  Notation pLit := (getLiteralAsZ3 defs).
  Notation pCall := (getFunctionCallAsZ3 fnName fnRet).
  Definition pOperand (bin : nat -> out cav) (geps : bool) (fuel op : nat) : out cav :=
    let op := match defs op with DCast _ a => a | _ => op end in
    if isConstantData defs op then pLit op
    else match defs op with
         | DLoad p => pLoad fuel op p
         | DBin _ _ _ _ => bin op
         | DCall callee _ => pCall callee
         | DGep t _ => if geps then pGep op t else OFatal
         | _ => OFatal
         end.
  Fixpoint pBin (fuel v : nat) : out cav :=
    match fuel with
    | 0 => ONoFuel
    | S f =>
        match defs v with
        | DBin _ o a b =>
            obind (pOperand (pBin f) false f a) (fun l =>
            obind (pOperand (pBin f) false f b) (fun r =>
            obind (mkBin o (fst l) (fst r)) (fun e => ORet (e, snd l ++ snd r))))
        | _ => OFatal
        end
    end.
  Definition pCmp (fuel v : nat) : out cav :=
    match defs v with
    | DCmp _ p a b =>
        obind (pOperand (pBin fuel) true fuel a) (fun l =>
        obind (pOperand (pBin fuel) true fuel b) (fun r =>
        obind (mkRel (relOf p) (fst l) (fst r)) (fun e => ORet (e, snd l ++ snd r))))
    | DFCmp a b =>
        obind (pOperand (pBin fuel) true fuel a) (fun l => obind (pOperand (pBin fuel) true fuel b) (fun r => OFatal))
    | _ => OFatal
    end.
  Definition pPhiValue (fuel : nat) (ty : out expr) (v : nat) : out cav :=
    match defs v with
    | DInt bits z =>
        if Z.eqb z 1 || (Nat.eqb bits 1 && Z.eqb z (-1)) then ORet (EBool true, [])
        else if Z.eqb z 0 then ORet (EBool false, [])
        else obind ty (fun e => ORet (e, []))
    | DLoad p => pLoad fuel v p
    | DCall callee _ => pCall callee
    | DCmp _ _ _ _ | DFCmp _ _ => pCmp fuel v
    | _ => OFatal
    end.
  Fixpoint pPhiValues (fuel : nat) (ty : out expr) (l : list nat) (acc : cav) : out cav :=
    match l with
    | [] => ORet acc
    | v :: l' =>
        obind (pPhiValue fuel ty v) (fun r =>
        obind (mkOr (fst acc) (fst r)) (fun e => pPhiValues fuel ty l' (e, snd acc ++ snd r)))
    end.
  Definition pPhi (fuel v : nat) : out cav :=
    match defs v with
    | DPhi TOther _ => OFatal
    | DPhi t ins => pPhiValues fuel (constOf "PHI" t OFatal) ins (EBool true, [])
    | _ => OFatal
    end.
  Definition pByEdge (h : out cav) (t f succ : nat) : option (out cav) :=
    if eqb (getFirstInst isDbg insts ignoreDbg t) (Some succ) then Some h
    else if eqb (getFirstInst isDbg insts ignoreDbg f) (Some succ) then
      Some (obind h (fun r => obind (mkNot (fst r)) (fun e => ORet (e, snd r))))
    else None.
  Definition pCondBr (fuel cond t f succ : nat) : out cav :=
    match
      match defs cond with
      | DCmp _ _ _ _ | DFCmp _ _ => pByEdge (pCmp fuel cond) t f succ
      | DBin _ _ _ _ => pByEdge (pBin fuel cond) t f succ
      | DCall callee _ => pByEdge (pCall callee) t f succ
      | DCast (Trunc 1) a =>
          match defs a with
          | DLoad p =>
              Some (obind (pLoad fuel a p) (fun r =>
                    obind (mkMod (fst r) (EInt 2)) (fun m => obind (mkRel REq m (EInt 1)) (fun e => ORet (e, snd r)))))
          | _ => None
          end
      | DPhi _ _ => Some (pPhi fuel cond)
      | _ => None
      end
    with
    | Some r => r
    | None => OFatal
    end.
  Definition pEdge (fuel from to : nat) : out (option cav) :=
    match defs from with
    | DBr cond t f =>
        let to' := rewind isDbg blockOf insts ignoreDbg to in
        if isBranchTarget insts t f to' then obind (pCondBr fuel cond t f to') (fun r => ORet (Some r)) else ORet None
    | _ => ORet None
    end.

  (** ** More fuel gives the same result *)
  Definition below {A} (p q : out A) : Prop := p = ONoFuel \/ p = q.
  Lemma below_refl {A} (p : out A) : below p p. Proof. now right. Qed.
  Lemma below_bind {A B} (p q : out A) (f g : A -> out B) : below p q -> (forall a, below (f a) (g a)) -> below (obind p f) (obind q g).
  Proof. intros [->| ->] Hf; [now left|]. destruct q; cbn; try apply below_refl. apply Hf. Qed.
  Hint Resolve below_refl : core.
  Lemma pTrack_below : forall f w, below (pTrack f w) (pTrack (S f) w).
  Proof.
    induction f as [|f IH]; intros w; [now left|]. destruct w as [|v w]; [auto|].
    remember (S f) as g eqn:Eg. cbn [pTrack]. rewrite Eg at 1. cbn [pTrack]. destruct (defs v); auto; rewrite Eg; apply IH.
  Qed.
  Lemma pLoad_below f v p : below (pLoad f v p) (pLoad (S f) v p).
  Proof. unfold pLoad. destruct (defs p); auto using pTrack_below. Qed.
  Lemma pOperand_below b1 b2 g f op : (forall v, below (b1 v) (b2 v)) -> below (pOperand b1 g f op) (pOperand b2 g (S f) op).
  Proof.
    intros Hb. unfold pOperand. set (o := match defs op with DCast _ a => a | _ => op end). destruct (isConstantData defs o); auto.
    destruct (defs o); auto using pLoad_below.
  Qed.
  Lemma pBin_below : forall f v, below (pBin f v) (pBin (S f) v).
  Proof.
    induction f as [|f IH]; intros v; [now left|].
    change (pBin (S (S f)) v) with
      (match defs v with DBin _ o a b => obind (pOperand (pBin (S f)) false (S f) a) (fun l => obind (pOperand (pBin (S f)) false (S f) b) (fun r =>
            obind (mkBin o (fst l) (fst r)) (fun e => ORet (e, snd l ++ snd r)))) | _ => OFatal end).
    cbn [pBin]. destruct (defs v); auto. apply below_bind; [now apply pOperand_below|]. intros l.
    apply below_bind; [now apply pOperand_below|]. auto.
  Qed.
  Lemma pCmp_below f v : below (pCmp f v) (pCmp (S f) v).
  Proof.
    unfold pCmp. destruct (defs v); auto; (apply below_bind; [apply pOperand_below, pBin_below|]; intros l;
      apply below_bind; [apply pOperand_below, pBin_below|]; auto).
  Qed.
  Lemma pPhiValues_below f ty l : forall acc, below (pPhiValues f ty l acc) (pPhiValues (S f) ty l acc).
  Proof.
    induction l as [|v l IH]; intros acc; cbn [pPhiValues]; auto. apply below_bind.
    - unfold pPhiValue. destruct (defs v); auto using pLoad_below, pCmp_below.
    - intros r. apply below_bind; auto.
  Qed.
  Lemma pPhi_below f v : below (pPhi f v) (pPhi (S f) v).
  Proof. unfold pPhi. destruct (defs v); auto. destruct t; auto using pPhiValues_below. Qed.
  Lemma below_le {A} (F : nat -> out A) : (forall f, below (F f) (F (S f))) -> forall n m, n <= m -> below (F n) (F m).
  Proof. intros H n m. induction 1 as [|m _ IH]; auto. destruct IH as [->| ->]; [now left|auto]. Qed.
  Lemma below_same {A} (F : nat -> out A) n m x y : (forall f, below (F f) (F (S f))) -> F n = ORet x -> F m <> ONoFuel -> F m = y -> y = ORet x.
  Proof.
    intros H X Y Z. destruct (Nat.le_ge_cases n m) as [L|L].
    - destruct (below_le F H n m L) as [E|E]; [congruence|]. congruence.
    - destruct (below_le F H m n L) as [E|E]; [congruence|]. congruence.
  Qed.

  (** ** Tables *)
  Definition pAny (n v : nat) : out cav :=
    match defs v with
    | DAlloca t => pAlloca v t
    | DGep t _ => pGep v t
    | DBin _ _ _ _ => pBin n v
    | DPhi _ _ => pPhi n v
    | _ => OFatal
    end.
  Lemma pAny_below n v : below (pAny n v) (pAny (S n) v).
  Proof. unfold pAny. destruct (defs v); auto using pBin_below, pPhi_below. Qed.
  (** every entry is what is computed without the table *)
  Definition sound (c : cache) : Prop := forall v x, lookup v c = Some x -> exists n, pAny n v = ORet x.
  Definition agree {A} (h : out (A * cache)) (p : out A) : Prop :=
    match p with
    | ONoFuel => True
    | OFatal => h = OFatal
    | OClash => h = OClash
    | OOutside => h = OOutside
    | ORet x => exists c, h = ORet (x, c) /\ sound c
    end.
  Lemma agree_bind {A B} (h : out (A * cache)) (p : out A) (k : A * cache -> out (B * cache)) kp :
    agree h p -> (forall x c, sound c -> agree (k (x, c)) (kp x)) -> agree (obind h k) (obind p kp).
  Proof.
    destruct p as [| | | |x]; cbn; auto; try (intros -> _; reflexivity). intros [c [-> Hc]] H. cbn. now apply H.
  Qed.
  Lemma agree_op {A B} (o : out A) (k : A -> out (B * cache)) kp : (forall e, agree (k e) (kp e)) -> agree (obind o k) (obind o kp).
  Proof. destruct o; cbn; auto. Qed.
  Lemma agree_pure {A} (o : out A) c : sound c -> agree (obind o (fun x => ORet (x, c))) o.
  Proof. destruct o; cbn; eauto. Qed.
  Lemma hit v c x n p : sound c -> lookup v c = Some x -> pAny n v = p -> agree (ORet (x, c)) p.
  Proof.
    intros Hc Hl Hp. destruct (Hc v x Hl) as [m Hm].
    assert (K : p = ONoFuel \/ p = ORet x).
    { destruct p eqn:Ep; auto; right; symmetry; symmetry; eapply (below_same (fun n => pAny n v) m n); eauto using pAny_below; rewrite Hp; discriminate. }
    destruct K as [->| ->]; cbn; eauto.
  Qed.
  Lemma emplace_ok v x c n : sound c -> pAny n v = ORet x -> exists c', emplace v x c = (x, c') /\ sound c'.
  Proof.
    intros Hc Hp. unfold emplace. destruct (lookup v c) as [y|] eqn:El.
    - destruct (hit v c y n _ Hc El Hp) as [c' [E Hc']]. injection E as -> ->. eauto.
    - eexists. split; eauto. intros u z. unfold lookup. cbn. destruct (eq_dec u v) as [->|]; [intros [= <-]; eauto|apply Hc].
  Qed.

  Lemma alloca_agree v t c : defs v = DAlloca t -> sound c -> agree (getAllocaInstAsZ3 varName v t c) (pAlloca v t).
  Proof.
    intros Ed Hc. unfold getAllocaInstAsZ3. destruct (lookup v c) as [x|] eqn:El.
    - apply (hit v c x 0); auto. unfold pAny. now rewrite Ed.
    - unfold pAlloca. destruct (constOf (varName v) t OFatal) as [| | | |e] eqn:Ec; cbn; auto.
      destruct (emplace_ok v (e, [v]) c 0 Hc) as [c' [-> Hc']]; eauto. unfold pAny. rewrite Ed. unfold pAlloca. now rewrite Ec.
  Qed.
  Lemma gep_agree v t ops c : defs v = DGep t ops -> sound c -> agree (getGEPInstAsZ3 gepName v t c) (pGep v t).
  Proof.
    intros Ed Hc. unfold getGEPInstAsZ3, pGep. destruct (constOf (gepName v) t _) as [| | | |e] eqn:Ec; cbn; auto.
    destruct (emplace_ok v (e, [v]) c 0 Hc) as [c' [-> Hc']]; eauto. unfold pAny. rewrite Ed. unfold pGep. now rewrite Ec.
  Qed.
  Lemma track_agree : forall f w c, sound c -> agree (track defs varName gepName f w c) (pTrack f w).
  Proof.
    induction f as [|f IH]; intros w c Hc; cbn [track pTrack]; [exact Logic.I|]. destruct w as [|v w]; [reflexivity|].
    destruct (defs v) eqn:Ed; auto using alloca_agree. eapply gep_agree; eauto.
  Qed.
  Lemma no_entry v c : sound c -> match defs v with DAlloca _ | DGep _ _ | DBin _ _ _ _ | DPhi _ _ => False | _ => True end -> lookup v c = None.
  Proof.
    intros Hc Hd. destruct (lookup v c) as [x|] eqn:El; auto. destruct (Hc v x El) as [n Hn]. unfold pAny in Hn.
    destruct (defs v); try discriminate; contradiction.
  Qed.
  Lemma load_agree f v p c : defs v = DLoad p -> sound c -> agree (getLoadInstAsZ3 defs varName gepName f v p c) (pLoad f v p).
  Proof.
    intros Ed Hc. unfold getLoadInstAsZ3. rewrite (no_entry v c Hc) by (now rewrite Ed). unfold pLoad.
    destruct (defs p) eqn:Ep; auto using track_agree, alloca_agree. eapply gep_agree; eauto.
  Qed.
  Lemma operand_agree bin pb g f op c :
    (forall v c b o x y, defs v = DBin b o x y -> sound c -> agree (bin v c) (pb v)) -> sound c ->
    agree (handleOperand defs varName gepName fnName fnRet bin g f op c) (pOperand pb g f op).
  Proof.
    intros Hb Hc. unfold handleOperand, pOperand. set (o := match defs op with DCast _ a => a | _ => op end). clearbody o.
    destruct (isConstantData defs o); [now apply agree_pure|]. destruct (defs o) eqn:Ed; try reflexivity.
    - unfold pLoad. destruct (defs p) eqn:Ep; try (now apply alloca_agree);
        (pose proof (load_agree f o p c Ed Hc) as X; unfold pLoad in X; rewrite Ep in X; exact X).
    - destruct g; [|reflexivity]. eapply gep_agree; eauto.
    - eapply Hb; eauto.
    - now apply agree_pure.
  Qed.
  Lemma bin_agree : forall f v c b o x y, defs v = DBin b o x y -> sound c ->
    agree (handleBinaryOperator defs varName gepName fnName fnRet f v c) (pBin f v).
  Proof.
    induction f as [|f IH]; intros v c bits o a b Ed Hc; cbn [handleBinaryOperator]; [exact Logic.I|].
    destruct (lookup v c) as [x|] eqn:El.
    - apply (hit v c x (S f)); auto. unfold pAny. now rewrite Ed.
    - assert (P : pAny (S f) v = pBin (S f) v) by (unfold pAny; now rewrite Ed).
      cbn [pBin] in *. rewrite Ed in *.
      pose proof (operand_agree _ (pBin f) false f a c IH Hc) as Ha. destruct (pOperand (pBin f) false f a) as [| | | |l] eqn:El1; cbn in Ha; cbn [obind]; try exact Logic.I; try (rewrite Ha; reflexivity).
      destruct Ha as [c1 [-> Hc1]]. cbn [obind fst snd].
      pose proof (operand_agree _ (pBin f) false f b c1 IH Hc1) as Hb. destruct (pOperand (pBin f) false f b) as [| | | |r] eqn:Er1; cbn in Hb; cbn [obind]; try exact Logic.I; try (rewrite Hb; reflexivity).
      destruct Hb as [c2 [-> Hc2]]. cbn [obind fst snd] in *.
      destruct (mkBin o (fst l) (fst r)) as [| | | |e]; cbn [obind] in *; try reflexivity; try exact Logic.I.
      destruct (emplace_ok v _ c2 (S f) Hc2 P) as [c3 [-> Hc3]]. cbn. eauto.
  Qed.
  Lemma cmp_agree f v c : match defs v with DCmp _ _ _ _ | DFCmp _ _ => True | _ => False end -> sound c ->
    agree (handleCmpInst defs varName gepName fnName fnRet f v c) (pCmp f v).
  Proof.
    intros Hd Hc. unfold handleCmpInst. rewrite (no_entry v c Hc) by (destruct (defs v); tauto). unfold pCmp.
    destruct (defs v); try contradiction.
    - apply agree_bind; [apply operand_agree; auto; apply bin_agree|]. intros l c1 H1. cbn [fst snd].
      apply agree_bind; [apply operand_agree; auto; apply bin_agree|]. intros r c2 H2. cbn [fst snd].
      apply agree_op. intros e. cbn. eauto.
    - apply agree_bind; [apply operand_agree; auto; apply bin_agree|]. intros l c1 H1. cbn [fst snd].
      apply agree_bind; [apply operand_agree; auto; apply bin_agree|]. intros r c2 H2. reflexivity.
  Qed.
  Lemma phiValue_agree f ty v c : sound c ->
    agree (phiValue defs varName gepName fnName fnRet f ty v c) (pPhiValue f ty v).
  Proof.
    intros Hc. unfold phiValue, pPhiValue. destruct (defs v) eqn:Ed; try reflexivity.
    - destruct (_ || _); [cbn; eauto|]. destruct (Z.eqb z 0); [cbn; eauto|]. apply agree_op. intros e. cbn. eauto.
    - now apply load_agree.
    - apply cmp_agree; auto. now rewrite Ed.
    - apply cmp_agree; auto. now rewrite Ed.
    - now apply agree_pure.
  Qed.
  Lemma phiValues_agree f ty l : forall acc c, sound c ->
    agree (phiValues defs varName gepName fnName fnRet f ty l acc c) (pPhiValues f ty l acc).
  Proof.
    induction l as [|v l IH]; intros acc c Hc; cbn [phiValues pPhiValues]; [cbn; eauto|].
    apply agree_bind; [now apply phiValue_agree|]. intros r c1 H1. cbn [fst snd]. apply agree_op. intros e. now apply IH.
  Qed.
  Lemma phi_agree f v c t ins : defs v = DPhi t ins -> sound c ->
    agree (handlePhiInstruction defs varName gepName fnName fnRet f v c) (pPhi f v).
  Proof.
    intros Ed Hc. unfold handlePhiInstruction. destruct (lookup v c) as [x|] eqn:El.
    - apply (hit v c x f); auto. unfold pAny. now rewrite Ed.
    - assert (P : pAny f v = pPhi f v) by (unfold pAny; now rewrite Ed). rewrite Ed. unfold pPhi in *. rewrite Ed in *.
      destruct t; try reflexivity;
        (match goal with |- agree (obind (phiValues _ _ _ _ _ _ ?T _ ?Ac _) _) _ => pose proof (phiValues_agree f T ins Ac c Hc) as X end;
         destruct (pPhiValues _ _ _ _) as [| | | |r] eqn:Er; cbn in X |- *; try exact Logic.I; try (rewrite X; reflexivity);
         destruct X as [c1 [-> H1]]; cbn [obind fst snd]; destruct (emplace_ok v _ c1 f H1 P) as [c3 [-> Hc3]]; cbn; eauto).
  Qed.
  Lemma byEdge_agree h p t f s : agree h p ->
    match byEdge isDbg insts ignoreDbg h t f s, pByEdge p t f s with Some h, Some p => agree h p | None, None => True | _, _ => False end.
  Proof.
    intros H. unfold byEdge, pByEdge. destruct (eqb _ _); auto. destruct (eqb _ _); auto.
    apply agree_bind; auto. intros r c Hc. cbn [fst snd]. apply agree_op. intros e. cbn. eauto.
  Qed.
  Lemma condBr_agree fuel br cond t f s c : defs br = DBr cond t f -> sound c ->
    agree (handleCondBrInst defs isDbg insts varName gepName fnName fnRet ignoreDbg fuel br cond t f s c) (pCondBr fuel cond t f s).
  Proof.
    intros Ed Hc. unfold handleCondBrInst. rewrite (no_entry br c Hc) by (now rewrite Ed). unfold pCondBr.
    assert (K : forall h p, agree h p -> agree (match byEdge isDbg insts ignoreDbg h t f s with Some r => r | None => OFatal end)
                                          (match pByEdge p t f s with Some r => r | None => OFatal end)).
    { intros h p H. pose proof (byEdge_agree h p t f s H) as X. destruct (byEdge _ _ _ h t f s), (pByEdge p t f s); try contradiction; auto. reflexivity. }
    destruct (defs cond) eqn:Ec; try reflexivity.
    - apply K. eapply bin_agree; eauto.
    - apply K. apply cmp_agree; auto. now rewrite Ec.
    - apply K. apply cmp_agree; auto. now rewrite Ec.
    - destruct k as [[|[|n]]| | |]; try reflexivity. destruct (defs a) eqn:Ea; try reflexivity.
      apply agree_bind; [now apply load_agree|]. intros r c1 H1. cbn [fst snd]. apply agree_op. intros m. apply agree_op. intros e. cbn. eauto.
    - apply K. now apply agree_pure.
    - eapply phi_agree; eauto.
  Qed.
  Lemma edge_agree fuel from to c : sound c ->
    agree (internalGetConstraintAndVariablesFromEdge defs isDbg blockOf insts varName gepName fnName fnRet ignoreDbg fuel from to c)
      (pEdge fuel from to).
  Proof.
    intros Hc. unfold internalGetConstraintAndVariablesFromEdge, pEdge. destruct (defs from) eqn:Ed; try (cbn; eauto; fail).
    destruct (isBranchTarget _ _ _ _); [|cbn; eauto]. apply agree_bind; [now apply condBr_agree|]. intros r c1 H1. cbn. eauto.
  Qed.
  Lemma sound_nil : sound [].
  Proof. intros v x. discriminate. Qed.

  (** ** What is returned is computed without the table, too *)
  Definition back {A} (h : out (A * cache)) (F : nat -> out A) : Prop :=
    forall x c, h = ORet (x, c) -> sound c /\ exists m, forall m', m <= m' -> F m' = ORet x.
  Lemma back_bind {A B} (h : out (A * cache)) F (k : A * cache -> out (B * cache)) K :
    back h F -> (forall x c, sound c -> back (k (x, c)) (K x)) -> back (obind h k) (fun m => obind (F m) (fun x => K x m)).
  Proof.
    intros H1 H2 y c. destruct h as [| | | |[x c1]] eqn:Eh; cbn; try discriminate. intros E.
    destruct (H1 x c1 eq_refl) as [S1 [m1 M1]]. destruct (H2 x c1 S1 y c E) as [S2 [m2 M2]]. split; auto.
    exists (max m1 m2). intros m' L. rewrite M1 by lia. cbn. apply M2. lia.
  Qed.
  Lemma back_op {A B} (o : out A) (k : A -> out (B * cache)) K : (forall e, back (k e) (K e)) -> back (obind o k) (fun m => obind o (fun e => K e m)).
  Proof. destruct o; cbn; auto; intros _ x c; discriminate. Qed.
  Lemma back_ret {A} (x : A) c : sound c -> back (ORet (x, c)) (fun _ => ORet x).
  Proof. intros Hc y c' [= -> ->]. split; auto. exists 0. auto. Qed.
  Lemma back_pure {A} (o : out A) c : sound c -> back (obind o (fun x => ORet (x, c))) (fun _ => o).
  Proof. intros Hc y c'. destruct o; cbn; try discriminate. intros [= -> ->]. split; auto. exists 0. auto. Qed.
  Lemma back_hit v c x : sound c -> lookup v c = Some x -> back (ORet (x, c)) (fun n => pAny n v).
  Proof.
    intros Hc Hl y c' [= -> ->]. split; auto. destruct (Hc v _ Hl) as [n Hn]. exists n. intros m L.
    destruct (below_le (fun n => pAny n v) (fun f => pAny_below f v) n m L) as [E|E]; cbn in E; congruence.
  Qed.
  Lemma back_emplace v c x (F : nat -> out cav) : sound c -> (forall n, F n = pAny n v) -> (exists m, forall m', m <= m' -> F m' = ORet x) ->
    back (ORet (emplace v x c)) F.
  Proof.
    intros Hc Hf [m Hm]. destruct (emplace_ok v x c m Hc) as [c' [-> Hc']]; [rewrite <- Hf; auto|].
    intros y c1 [= <- <-]. split; eauto.
  Qed.
  Lemma back_weaken {A} h (F G : nat -> out A) : (forall n, F n = G n) -> back h F -> back h G.
  Proof. intros E H x c X. destruct (H x c X) as [S1 [m M]]. split; auto. exists m. intros. rewrite <- E. auto. Qed.
  Lemma back_shift {A} h (F : nat -> out A) : back h F -> back h (fun n => F (pred n)).
  Proof. intros H x c X. destruct (H x c X) as [S1 [m M]]. split; auto. exists (S m). intros n L. apply M. lia. Qed.

  Lemma alloca_back v t c : defs v = DAlloca t -> sound c -> back (getAllocaInstAsZ3 varName v t c) (fun _ => pAlloca v t).
  Proof.
    intros Ed Hc. assert (P : forall n, pAny n v = pAlloca v t) by (intros n; unfold pAny; now rewrite Ed).
    apply back_weaken with (fun n => pAny n v); auto. unfold getAllocaInstAsZ3. destruct (lookup v c) as [y|] eqn:El; [now apply back_hit|].
    destruct (constOf (varName v) t OFatal) as [| | | |e] eqn:Ec; try (intros x c'; discriminate). cbn.
    apply back_emplace; auto. exists 0. intros n _. rewrite P. unfold pAlloca. now rewrite Ec.
  Qed.
  Lemma gep_back v t ops c : defs v = DGep t ops -> sound c -> back (getGEPInstAsZ3 gepName v t c) (fun _ => pGep v t).
  Proof.
    intros Ed Hc. unfold getGEPInstAsZ3, pGep. destruct (constOf (gepName v) t _) as [| | | |e] eqn:Ec; try (intros x c'; discriminate).
    cbn. apply back_weaken with (fun n => pAny n v); [intros n; unfold pAny; rewrite Ed; unfold pGep; now rewrite Ec|].
    apply back_emplace; auto. exists 0. intros n _. unfold pAny. rewrite Ed. unfold pGep. now rewrite Ec.
  Qed.
  Lemma track_back : forall f w c, sound c -> back (track defs varName gepName f w c) (fun m => pTrack m w).
  Proof.
    induction f as [|f IH]; intros w c Hc; cbn [track]; [intros x c'; discriminate|]. destruct w as [|v w]; [intros x c'; discriminate|].
    assert (K : forall h F, back h F -> (forall n, pTrack (S n) (v :: w) = F n) -> back h (fun m => pTrack m (v :: w))).
    { intros h F H E. intros x c' X. destruct (H x c' X) as [S1 [m M]]. split; auto. exists (S m). intros [|n] L; [lia|]. rewrite E. apply M. lia. }
    destruct (defs v) eqn:Ed;
      try (eapply K; [apply (IH (rev (operands defs v) ++ w) c Hc)|intros n; cbn [pTrack]; rewrite Ed; reflexivity]).
    - eapply K; [apply alloca_back; eauto|]. intros n. cbn [pTrack]. now rewrite Ed.
    - eapply K; [eapply gep_back; eauto|]. intros n. cbn [pTrack]. now rewrite Ed.
  Qed.
  Lemma load_back f v p c : defs v = DLoad p -> sound c -> back (getLoadInstAsZ3 defs varName gepName f v p c) (fun m => pLoad m v p).
  Proof.
    intros Ed Hc. unfold getLoadInstAsZ3. rewrite (no_entry v c Hc) by (now rewrite Ed). unfold pLoad.
    destruct (defs p) eqn:Ep; auto using track_back, alloca_back. eapply gep_back; eauto.
  Qed.
  Lemma operand_back bin g f op c :
    (forall v c b o x y, defs v = DBin b o x y -> sound c -> back (bin v c) (fun m => pBin m v)) -> sound c ->
    back (handleOperand defs varName gepName fnName fnRet bin g f op c) (fun m => pOperand (pBin m) g m op).
  Proof.
    intros Hb Hc. unfold handleOperand, pOperand. set (o := match defs op with DCast _ a => a | _ => op end). clearbody o.
    destruct (isConstantData defs o); [now apply back_pure|]. destruct (defs o) eqn:Ed; try (intros x c'; discriminate).
    - apply back_weaken with (fun m => pLoad m o p); [reflexivity|]. destruct (defs p) eqn:Ep; try (now apply load_back).
      apply back_weaken with (fun _ => pAlloca p t); [intros; unfold pLoad; now rewrite Ep|]. now apply alloca_back.
    - destruct g; [|intros x c'; discriminate]. eapply gep_back; eauto.
    - eapply Hb; eauto.
    - now apply back_pure.
  Qed.
  Lemma bin_back : forall f v c b o x y, defs v = DBin b o x y -> sound c ->
    back (handleBinaryOperator defs varName gepName fnName fnRet f v c) (fun m => pBin m v).
  Proof.
    induction f as [|f IH]; intros v c bits o a b Ed Hc; cbn [handleBinaryOperator]; destruct (lookup v c) as [x|] eqn:El.
    1,3: apply back_weaken with (fun n => pAny n v); [intros n; unfold pAny; now rewrite Ed|]; now apply back_hit.
    - intros x c'. discriminate.
    - rewrite Ed. intros y c'.
      destruct (handleOperand _ _ _ _ _ _ _ _ a c) as [| | | |[l c1]] eqn:H1; cbn [obind]; try discriminate. cbn [fst snd].
      destruct (handleOperand _ _ _ _ _ _ _ _ b c1) as [| | | |[r c2]] eqn:H2; cbn [obind]; try discriminate. cbn [fst snd].
      destruct (mkBin o (fst l) (fst r)) as [| | | |e] eqn:H3; cbn [obind]; try discriminate. intros E.
      destruct (operand_back _ false f a c IH Hc l c1 H1) as [S1 [m1 M1]].
      destruct (operand_back _ false f b c1 IH S1 r c2 H2) as [S2 [m2 M2]].
      eapply (back_emplace v c2 _ (fun m => pBin m v)); [exact S2|intros n; unfold pAny; now rewrite Ed| |exact E].
      exists (S (max m1 m2)). intros [|m] L; [lia|]. cbn [pBin]. rewrite Ed, M1, M2 by lia. cbn. now rewrite H3.
  Qed.
  Lemma cmp_back f v c : match defs v with DCmp _ _ _ _ | DFCmp _ _ => True | _ => False end -> sound c ->
    back (handleCmpInst defs varName gepName fnName fnRet f v c) (fun m => pCmp m v).
  Proof.
    intros Hd Hc. unfold handleCmpInst. rewrite (no_entry v c Hc) by (destruct (defs v); tauto). unfold pCmp.
    destruct (defs v); try contradiction.
    - apply (back_bind _ (fun m => pOperand (pBin m) true m a) _ (fun l m => obind (pOperand (pBin m) true m b) (fun r =>
        obind (mkRel (relOf p) (fst l) (fst r)) (fun e => ORet (e, snd l ++ snd r))))); [apply operand_back; auto; apply bin_back|]. intros l c1 H1. cbn [fst snd].
      apply (back_bind _ (fun m => pOperand (pBin m) true m b) _ (fun r m => obind (mkRel (relOf p) (fst l) (fst r)) (fun e => ORet (e, snd l ++ snd r))));
        [apply operand_back; auto; apply bin_back|]. intros r c2 H2. cbn [fst snd].
      apply back_op. intros e. now apply back_ret.
    - intros x c'. destruct (handleOperand _ _ _ _ _ _ _ _ a c) as [| | | |l]; cbn; try discriminate.
      destruct (handleOperand _ _ _ _ _ _ _ _ b _) as [| | | |r]; cbn; discriminate.
  Qed.
  Lemma phiValue_back f ty v c : sound c -> back (phiValue defs varName gepName fnName fnRet f ty v c) (fun m => pPhiValue m ty v).
  Proof.
    intros Hc. unfold phiValue, pPhiValue. destruct (defs v) eqn:Ed; try (intros x c'; discriminate).
    - destruct (_ || _); [now apply back_ret|]. destruct (Z.eqb z 0); [now apply back_ret|]. apply back_op. intros e. now apply back_ret.
    - now apply load_back.
    - apply cmp_back; auto. now rewrite Ed.
    - apply cmp_back; auto. now rewrite Ed.
    - now apply back_pure.
  Qed.
  Lemma phiValues_back f ty l : forall acc c, sound c ->
    back (phiValues defs varName gepName fnName fnRet f ty l acc c) (fun m => pPhiValues m ty l acc).
  Proof.
    induction l as [|v l IH]; intros acc c Hc; cbn [phiValues pPhiValues]; [now apply back_ret|].
    apply (back_bind _ (fun m => pPhiValue m ty v) _ (fun r m => obind (mkOr (fst acc) (fst r)) (fun e => pPhiValues m ty l (e, snd acc ++ snd r))));
      [now apply phiValue_back|]. intros r c1 H1. cbn [fst snd].
    apply (back_op _ _ (fun e m => pPhiValues m ty l (e, snd acc ++ snd r))). intros e. now apply IH.
  Qed.
  Lemma phi_back f v c t ins : defs v = DPhi t ins -> sound c ->
    back (handlePhiInstruction defs varName gepName fnName fnRet f v c) (fun m => pPhi m v).
  Proof.
    intros Ed Hc. unfold handlePhiInstruction. destruct (lookup v c) as [x|] eqn:El.
    - apply back_weaken with (fun n => pAny n v); [intros n; unfold pAny; now rewrite Ed|]. now apply back_hit.
    - rewrite Ed. intros y c'.
      destruct t; try discriminate;
        (match goal with |- obind (phiValues _ _ _ _ _ _ ?T _ ?Ac _) _ = _ -> _ => pose proof (phiValues_back f T ins Ac c Hc) as X end;
         destruct (phiValues _ _ _ _ _ _ _ _ _ _) as [| | | |[r c1]] eqn:Er; cbn [obind]; try discriminate; intros E;
         destruct (X r c1 eq_refl) as [S1 [m M]];
         eapply (back_emplace v c1 _ (fun m => pPhi m v)); [exact S1|intros n; unfold pAny; now rewrite Ed| |exact E];
         exists m; intros m' L; unfold pPhi; rewrite Ed; auto).
  Qed.
  Lemma byEdge_back h F t f s : back h F ->
    back (match byEdge isDbg insts ignoreDbg h t f s with Some r => r | None => OFatal end)
      (fun m => match pByEdge (F m) t f s with Some r => r | None => OFatal end).
  Proof.
    intros H. unfold byEdge, pByEdge. destruct (eqb _ _); auto. destruct (eqb _ _); [|intros x c; discriminate].
    apply (back_bind _ F _ (fun r _ => obind (mkNot (fst r)) (fun e => ORet (e, snd r)))); auto. intros r c Hc. cbn [fst snd].
    apply back_op. intros e. now apply back_ret.
  Qed.
  Lemma condBr_back fuel br cond t f s c : defs br = DBr cond t f -> sound c ->
    back (handleCondBrInst defs isDbg insts varName gepName fnName fnRet ignoreDbg fuel br cond t f s c) (fun m => pCondBr m cond t f s).
  Proof.
    intros Ed Hc. unfold handleCondBrInst. rewrite (no_entry br c Hc) by (now rewrite Ed). unfold pCondBr.
    destruct (defs cond) eqn:Ec; try (intros x c'; discriminate).
    - apply (byEdge_back _ (fun m => pBin m cond)). eapply bin_back; eauto.
    - apply (byEdge_back _ (fun m => pCmp m cond)). apply cmp_back; auto. now rewrite Ec.
    - apply (byEdge_back _ (fun m => pCmp m cond)). apply cmp_back; auto. now rewrite Ec.
    - destruct k as [[|[|n]]| | |]; try (intros x c'; discriminate). destruct (defs a) eqn:Ea; try (intros x c'; discriminate).
      apply (back_bind _ (fun m => pLoad m a p) _ (fun r _ => obind (mkMod (fst r) (EInt 2)) (fun m => obind (mkRel REq m (EInt 1)) (fun e => ORet (e, snd r)))));
        [now apply load_back|]. intros r c1 H1. cbn [fst snd]. apply back_op. intros m. apply back_op. intros e. now apply back_ret.
    - apply (byEdge_back _ (fun _ => getFunctionCallAsZ3 fnName fnRet callee)). now apply back_pure.
    - eapply phi_back; eauto.
  Qed.
  Lemma edge_back fuel from to c : sound c ->
    back (internalGetConstraintAndVariablesFromEdge defs isDbg blockOf insts varName gepName fnName fnRet ignoreDbg fuel from to c)
      (fun m => pEdge m from to).
  Proof.
    intros Hc. unfold internalGetConstraintAndVariablesFromEdge, pEdge. destruct (defs from) eqn:Ed; try (now apply back_ret).
    destruct (isBranchTarget _ _ _ _); [|now apply back_ret].
    apply (back_bind _ (fun m => pCondBr m cond ifTrue ifFalse _) _ (fun r _ => ORet (Some r))); [now apply condBr_back|].
    intros r c1 H1. now apply back_ret.
  Qed.
End Pure.
