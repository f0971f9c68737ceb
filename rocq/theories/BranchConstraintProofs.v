(** Constraints of understood conditions mean what the branch does: proofs. *)
From Coq Require Import String List Bool Arith ZArith Lia.
From Verif Require Import Assoc BranchConstraintModel BranchConstraintSpec BranchCacheProofs.
Import ListNotations.
Local Open Scope Z_scope.

Lemma fits_bits bits z : fits bits z -> exists m, 0 < m /\ 2 ^ Z.of_nat bits = 2 * m /\ 2 ^ (Z.of_nat bits - 1) = m.
Proof.
  unfold fits. intros H. destruct bits as [|n]; [cbn in H; lia|]. exists (2 ^ Z.of_nat n). rewrite Nat2Z.inj_succ.
  replace (Z.succ (Z.of_nat n) - 1) with (Z.of_nat n) by lia. rewrite Z.pow_succ_r by lia. pose proof (Z.pow_pos_nonneg 2 (Z.of_nat n)). lia.
Qed.
Lemma wrap_fits bits z : fits bits z -> wrap bits z = z.
Proof.
  intros H. destruct (fits_bits bits z H) as [m [Hm [E1 E2]]]. unfold wrap, fits in *. rewrite E1, E2 in *.
  destruct (Z_lt_ge_dec z 0) as [L|L].
  - assert (E : z mod (2 * m) = z + 2 * m) by (symmetry; apply Z.mod_unique with (-1); lia). rewrite E.
    destruct (Z.ltb_spec (z + 2 * m) m); lia.
  - rewrite Z.mod_small by lia. destruct (Z.ltb_spec z m); lia.
Qed.
Lemma unsigned_fits bits z : fits bits z -> 0 <= z -> unsigned bits z = z.
Proof.
  intros H L. destruct (fits_bits bits z H) as [m [Hm [E1 E2]]]. unfold unsigned, fits in *. rewrite E1, E2 in *. apply Z.mod_small. lia.
Qed.
Lemma fits_between bits x z : fits bits x -> 0 <= z <= x -> fits bits z.
Proof. intros H L. destruct (fits_bits bits x H) as [m [Hm [E1 E2]]]. unfold fits in *. rewrite E2 in *. lia. Qed.
Definition arithOf (o : binop) : arith :=
  match o with Add => Plus | Sub => Minus | Mul => Times | UDiv | SDiv => Div | _ => Rem end.
Definition arithValue (I : interp) (o : arith) (x y : Z) : Z :=
  match o with Plus => x + y | Minus => x - y | Times => x * y | Div => zdiv I x y | Rem => zrem I x y end.
Lemma exactBin_ok I bits o x y : arithmetic o -> exactBin bits o x y -> binValue bits o x y = arithValue I (arithOf o) x y.
Proof.
  intros Ho He. unfold binValue. destruct o; cbn in Ho; try contradiction; cbn in He |- *; try (now apply wrap_fits).
  - destruct He as [Fx [Fy [X Y]]]. rewrite (unsigned_fits bits x), (unsigned_fits bits y) by (auto; lia). unfold zdiv.
    destruct (Z.eqb_spec y 0); [lia|]. destruct (Z.ltb_spec y 0); [lia|]. apply wrap_fits, (fits_between bits x); auto.
    split; [apply Z.div_pos; lia|]. apply Z.div_le_upper_bound; nia.
  - destruct He as [Fx [Fy [X Y]]]. rewrite Z.quot_div_nonneg by lia. unfold zdiv.
    destruct (Z.eqb_spec y 0); [lia|]. destruct (Z.ltb_spec y 0); [lia|]. apply wrap_fits, (fits_between bits x); auto.
    split; [apply Z.div_pos; lia|]. apply Z.div_le_upper_bound; nia.
  - destruct He as [Fx [Fy [X Y]]]. rewrite (unsigned_fits bits x), (unsigned_fits bits y) by (auto; lia). unfold zrem.
    destruct (Z.eqb_spec y 0); [lia|]. destruct (Z.ltb_spec y 0); [lia|]. apply wrap_fits, (fits_between bits y); auto.
    pose proof (Z.mod_pos_bound x y). lia.
  - destruct He as [Fx [Fy [X Y]]]. rewrite Z.rem_mod_nonneg by lia. unfold zrem.
    destruct (Z.eqb_spec y 0); [lia|]. destruct (Z.ltb_spec y 0); [lia|]. apply wrap_fits, (fits_between bits y); auto.
    pose proof (Z.mod_pos_bound x y). lia.
Qed.
Lemma exactCmp_ok bits p x y : exactCmp bits p x y ->
  cmpValue bits p x y = match relOf p with REq => x =? y | RNe => negb (x =? y) | RGt => y <? x | RGe => y <=? x | RLt => x <? y | RLe => x <=? y end.
Proof.
  unfold cmpValue. destruct p; cbn; auto; intros [Fx [Fy [X Y]]]; now rewrite (unsigned_fits bits x), (unsigned_fits bits y).
Qed.
Lemma bool_value I e : sortOf e = SBool -> value I e = 0 \/ value I e = -1.
Proof.
  assert (K : forall b, ofBool b = 0 \/ ofBool b = -1) by (intros []; auto).
  destruct e; cbn; try discriminate; auto. intros ->. cbn. auto.
Qed.

Section Meaning.
  Variable defs : nat -> def.
  Variable isDbg : nat -> bool.
  Variable blockOf : nat -> nat.
  Variable insts : nat -> list nat.
  Variable varName gepName : nat -> string.
  Variable fnName : nat -> option string.
  Variable fnRet : nat -> ty.
  Variable ignoreDbg : bool.
  Notation coherent := (coherent defs).
  Notation agrees := (agrees defs varName gepName fnName fnRet).
  Notation exact := (exact defs).
  Notation reads := (reads defs varName gepName fnName fnRet).
  Notation term := (term defs varName gepName fnName fnRet).
  Notation operand := (operand defs varName gepName fnName fnRet).
  Notation condition := (condition defs varName gepName fnName fnRet).
  Notation pOperand := (pOperand defs varName gepName fnName fnRet).
  Notation pBin := (pBin defs varName gepName fnName fnRet).
  Notation pCmp := (pCmp defs varName gepName fnName fnRet).
  Notation pCondBr := (pCondBr defs isDbg insts varName gepName fnName fnRet ignoreDbg).
  Notation pEdge := (pEdge defs isDbg blockOf insts varName gepName fnName fnRet ignoreDbg).

  (** the term says what the value is *)
  Definition means (v : nat) (e : expr) : Prop :=
    forall I rho, coherent rho -> agrees I rho -> exact rho v -> value I e = rho v.

  Scheme term_rec' := Minimality for BranchConstraintSpec.term Sort Prop
    with operand_rec' := Minimality for BranchConstraintSpec.operand Sort Prop.
  Combined Scheme term_operand_ind from term_rec', operand_rec'.

  Lemma constOf_sort n t s o : sortFor t s -> constOf n t o = ORet (EVar n s).
  Proof. inversion 1; subst; cbn; auto. destruct b as [|[|b]]; auto. congruence. Qed.
  Lemma read_ok v n s : reads v n s -> (forall k a, defs v <> DCast k a) /\
    exists vars, forall fuel g, pOperand (pBin fuel) g fuel v = ORet (EVar n s, vars).
  Proof.
    unfold BranchCacheProofs.pOperand, isConstantData. inversion 1 as [p t ? Hv Hp Hs|p t ops ? Hv Hp Hs|f ops ? ? Hv Hf Hs]; subst; rewrite Hv; cbn [isConstantData].
    - split; [discriminate|]. eexists. intros fuel g. rewrite Hv. unfold pLoad. rewrite Hp. unfold pAlloca. now rewrite (constOf_sort _ _ _ _ Hs).
    - split; [discriminate|]. eexists. intros fuel g. rewrite Hv. unfold pLoad. rewrite Hp. unfold pGep. now rewrite (constOf_sort _ _ _ _ Hs).
    - split; [discriminate|]. eexists. intros fuel g. rewrite Hv. cbn. rewrite Hf. now rewrite (constOf_sort _ _ _ _ Hs).
  Qed.
  Lemma exact_bin_inv rho v b o x y : defs v = DBin b o x y -> exact rho v -> exact rho x /\ exact rho y /\ exactBin b o (rho x) (rho y).
  Proof. intros E H. inversion H as [? D|? ? ? ? ? D|? ? ? ? ? D|? ? ? D]; subst; rewrite E in D; try contradiction; try discriminate. injection D as <- <- <- <-. auto. Qed.
  Lemma exact_cmp_inv rho v b o x y : defs v = DCmp b o x y -> exact rho v -> exact rho x /\ exact rho y /\ exactCmp b o (rho x) (rho y).
  Proof. intros E H. inversion H as [? D|? ? ? ? ? D|? ? ? ? ? D|? ? ? D]; subst; rewrite E in D; try contradiction; try discriminate. injection D as <- <- <- <-. auto. Qed.
  Lemma exact_cast_inv rho v k a : defs v = DCast k a -> exact rho v -> exact rho a /\ rho v = rho a.
  Proof. intros E H. inversion H as [? D|? ? ? ? ? D|? ? ? ? ? D|? ? ? D]; subst; rewrite E in D; try contradiction; try discriminate. injection D as <- <-. auto. Qed.

  Definition found (v : nat) (s : zsort) : Prop := exists n e vars,
    (forall fuel g, (n <= fuel)%nat -> pOperand (pBin fuel) g fuel v = ORet (e, vars)) /\ sortOf e = s /\ means v e.
  Lemma bin_found v b o x y s : defs v = DBin b o x y -> found x s -> found y s ->
    (forall ex ey, sortOf ex = s -> sortOf ey = s -> exists e, mkBin o ex ey = ORet e /\ sortOf e = s /\
       forall I zx zy, value I ex = zx -> value I ey = zy -> exactBin b o zx zy -> value I e = binValue b o zx zy) ->
    found v s.
  Proof.
    intros Ed [n1 [e1 [v1 [H1 [S1 M1]]]]] [n2 [e2 [v2 [H2 [S2 M2]]]]] Hm. destruct (Hm e1 e2 S1 S2) as [e [Em [Se Me]]].
    exists (S (max n1 n2)), e, (v1 ++ v2). split; [|split; auto].
    - intros fuel g L. unfold BranchCacheProofs.pOperand, isConstantData. rewrite Ed. rewrite Ed. destruct fuel as [|fuel]; [lia|]. cbn [BranchCacheProofs.pBin].
      rewrite Ed, H1, H2 by lia. cbn. now rewrite Em.
    - intros I rho Hc Ha He. destruct (exact_bin_inv _ _ _ _ _ _ Ed He) as [X [Y Z]]. pose proof (Hc v) as Hv. rewrite Ed in Hv. rewrite Hv.
      apply Me; auto.
  Qed.
  Lemma terms_ok : (forall v s, term v s -> (forall k a, defs v <> DCast k a) /\ found v s) /\ (forall v s, operand v s -> found v s).
  Proof.
    apply term_operand_ind.
    - intros v b z Ed. split; [congruence|]. exists 0%nat, (EInt z), []. split; [|split; auto].
      + intros fuel g _. unfold BranchCacheProofs.pOperand, isConstantData, getLiteralAsZ3. now rewrite !Ed.
      + intros I rho Hc _ _. specialize (Hc v). rewrite Ed in Hc. cbn. now rewrite Hc.
    - intros v Ed. split; [congruence|]. exists 0%nat, ENull, []. split; [|split; auto].
      + intros fuel g _. unfold BranchCacheProofs.pOperand, isConstantData, getLiteralAsZ3. now rewrite !Ed.
      + intros I rho Hc _ _. specialize (Hc v). rewrite Ed in Hc. cbn. now rewrite Hc.
    - intros v n s Hr. destruct (read_ok v n s Hr) as [X [vars Hv]]. split; auto. exists 0%nat, (EVar n s), vars. split; [auto|split; auto].
      intros I rho _ Ha _. cbn. symmetry. now apply Ha.
    - intros v b o x y Ed Ho _ Fx _ Fy. split; [congruence|]. eapply bin_found; eauto. intros ex ey Sx Sy.
      exists (EArith (arithOf o) ex ey). split; [|split; auto].
      + destruct o; cbn in Ho; try contradiction; cbn; unfold mkArith; now rewrite Sx, Sy.
      + intros I zx zy <- <- He. symmetry. now apply exactBin_ok.
    - intros v b o x y Ed Ho _ Fx _ Fy. split; [congruence|]. eapply bin_found; eauto. intros ex ey Sx Sy.
      exists (EJunct (match o with And => JAnd | Or => JOr | _ => JXor end) ex ey). split; [|split; auto].
      + destruct o; cbn in Ho; try contradiction; cbn; unfold mkBits; now rewrite Sx, Sy.
      + intros I zx zy <- <- He. destruct o; cbn in Ho; try contradiction; cbn in He; subst b;
          cbn [value]; destruct (bool_value I ex Sx) as [-> | ->], (bool_value I ey Sy) as [-> | ->]; reflexivity.
    - intros v s _ [_ F]. exact F.
    - intros v k a s Ed _ [Nc [n [e [vars [H [Se Me]]]]]]. exists n, e, vars. split; [|split; auto].
      + intros fuel g L. rewrite <- (H fuel g L). unfold BranchCacheProofs.pOperand at 1. rewrite Ed.
        unfold BranchCacheProofs.pOperand. destruct (defs a) eqn:Ea; rewrite ?Ea; try reflexivity. exfalso. eapply Nc; eauto.
      + intros I rho Hc Ha He. destruct (exact_cast_inv _ _ _ _ Ed He) as [X ->]. auto.
  Qed.

  (** a condition gives a constraint that holds if and only if it is true *)
  Lemma condition_ok c : condition c -> exists n e vars, sortOf e = SBool /\ means c e /\
    forall fuel t f s, (n <= fuel)%nat ->
      pCondBr fuel c t f s = match pByEdge isDbg insts ignoreDbg (ORet (e, vars)) t f s with Some r => r | None => OFatal end.
  Proof.
    destruct terms_ok as [Tm Op]. inversion 1 as [v b p x y s Ed Hx Hy Hp|v b o x y Ed Ht|v f ops Ed Ht]; subst v.
    - destruct (Op x s Hx) as [n1 [e1 [v1 [H1 [S1 M1]]]]]. destruct (Op y s Hy) as [n2 [e2 [v2 [H2 [S2 M2]]]]].
      exists (max n1 n2), (ERel (relOf p) e1 e2), (v1 ++ v2). split; [reflexivity|]. split.
      + intros I rho Hc Ha He. destruct (exact_cmp_inv _ _ _ _ _ _ Ed He) as [X [Y Z]]. pose proof (Hc c) as Hv. rewrite Ed in Hv. rewrite Hv.
        cbn. rewrite (M1 I rho Hc Ha X), (M2 I rho Hc Ha Y), (exactCmp_ok _ _ _ _ Z). reflexivity.
      + intros fuel t f s' L. unfold BranchCacheProofs.pCondBr. rewrite Ed. unfold BranchCacheProofs.pCmp. rewrite Ed, H1, H2 by lia. cbn [obind fst snd].
        assert (E : mkRel (relOf p) e1 e2 = ORet (ERel (relOf p) e1 e2)).
        { unfold mkRel. rewrite S1, S2. destruct s; [|destruct p; reflexivity|destruct p; reflexivity]. destruct (Hp eq_refl) as [-> | ->]; reflexivity. }
        rewrite E. reflexivity.
    - destruct (Tm c SBool Ht) as [_ [n [e [vars [H1 [S1 M1]]]]]]. exists n, e, vars. split; auto. split; auto.
      intros fuel t f s L. unfold BranchCacheProofs.pCondBr. rewrite Ed. specialize (H1 fuel true L). unfold BranchCacheProofs.pOperand, isConstantData in H1. rewrite Ed in H1.
      rewrite Ed in H1. now rewrite H1.
    - destruct (Tm c SBool Ht) as [_ [n [e [vars [H1 [S1 M1]]]]]]. exists n, e, vars. split; auto. split; auto.
      intros fuel t f' s L. unfold BranchCacheProofs.pCondBr. rewrite Ed. specialize (H1 fuel true L). unfold BranchCacheProofs.pOperand, isConstantData in H1. rewrite Ed in H1.
      rewrite Ed in H1. now rewrite H1.
  Qed.

  (** ** Edges *)
  Variable Sep : separateBlocks isDbg blockOf insts ignoreDbg.
  Lemma first_of_block b i l : insts b = i :: l -> getFirstInst isDbg insts ignoreDbg b = Some i /\ hd_error (insts b) = Some i /\ blockOf i = b.
  Proof.
    intros E. destruct Sep as [S1 S2]. unfold getFirstInst. rewrite E. split; [|split; [reflexivity|apply S1; rewrite E; now left]].
    destruct ignoreDbg; cbn; auto. now rewrite (S2 eq_refl b i l E).
  Qed.
  Lemma rewind_first to : wellPlaced isDbg blockOf insts ignoreDbg to ->
    exists l, insts (blockOf to) = rewind isDbg blockOf insts ignoreDbg to :: l.
  Proof.
    intros [Hi Hd]. destruct (insts (blockOf to)) as [|i l] eqn:E; [destruct Hi|]. exists l. f_equal. unfold rewind. rewrite E. cbn [before].
    destruct (Nat.eqb_spec i to) as [->|Ne].
    - destruct ignoreDbg; reflexivity.
    - destruct Sep as [_ S2]. destruct ignoreDbg; cbn; auto. now rewrite (S2 eq_refl _ _ _ E).
  Qed.
  Lemma first_other b i l b' : insts b = i :: l -> b <> b' -> hd_error (insts b') <> Some i /\ getFirstInst isDbg insts ignoreDbg b' <> Some i.
  Proof.
    intros E Ne. destruct (first_of_block b i l E) as [_ [_ B]]. destruct (insts b') as [|i' l'] eqn:E'.
    - unfold getFirstInst. rewrite E'. split; discriminate.
    - destruct (first_of_block b' i' l' E') as [G [Hh B']]. rewrite G. cbn. split; intros [= ->]; congruence.
  Qed.
  Lemma edge_ok from c t f to : defs from = DBr c t f -> t <> f -> wellPlaced isDbg blockOf insts ignoreDbg to -> forall fuel,
    pEdge fuel from to =
      if eqb (blockOf to) t || eqb (blockOf to) f
      then obind (pCondBr fuel c t f (rewind isDbg blockOf insts ignoreDbg to)) (fun r => ORet (Some r)) else ORet None.
  Proof.
    intros Ed Ntf Hw fuel. unfold BranchCacheProofs.pEdge. rewrite Ed. destruct (rewind_first to Hw) as [l El].
    set (i := rewind isDbg blockOf insts ignoreDbg to) in *. unfold isBranchTarget.
    assert (K : forall b, eqb (hd_error (insts b)) (Some i) = eqb (blockOf to) b).
    { intros b. destruct (eqb (blockOf to) b) eqn:E.
      - apply eqb_eq in E. subst b. rewrite El. apply eqb_refl.
      - apply Assoc.eqb_false in E. apply Assoc.eqb_false. now apply (first_other (blockOf to) i l b). }
    now rewrite !K.
  Qed.
  Lemma byEdge_true (h : out cav) t f to : wellPlaced isDbg blockOf insts ignoreDbg to -> blockOf to = t ->
    pByEdge isDbg insts ignoreDbg h t f (rewind isDbg blockOf insts ignoreDbg to) = Some h.
  Proof.
    intros Hw <-. destruct (rewind_first to Hw) as [l El]. unfold pByEdge. destruct (first_of_block _ _ _ El) as [-> _]. now rewrite eqb_refl.
  Qed.
  Lemma byEdge_false (h : out cav) t f to : wellPlaced isDbg blockOf insts ignoreDbg to -> blockOf to = f -> t <> f ->
    pByEdge isDbg insts ignoreDbg h t f (rewind isDbg blockOf insts ignoreDbg to) =
      Some (obind h (fun r => obind (mkNot (fst r)) (fun e => ORet (e, snd r)))).
  Proof.
    intros Hw <- Ne. destruct (rewind_first to Hw) as [l El]. unfold pByEdge. destruct (first_of_block _ _ _ El) as [-> _]. rewrite eqb_refl.
    destruct (first_other _ _ _ t El) as [_ X]; auto. apply Assoc.eqb_false in X. now rewrite X.
  Qed.
  Lemma edge_condition_ok from c t f to : defs from = DBr c t f -> t <> f -> condition c -> wellPlaced isDbg blockOf insts ignoreDbg to ->
    exists n, forall fuel, (n <= fuel)%nat ->
      (blockOf to = t -> exists e vs, pEdge fuel from to = ORet (Some (e, vs)) /\
         forall I rho, coherent rho -> agrees I rho -> exact rho c -> (holdsIn I e <-> rho c <> 0)) /\
      (blockOf to = f -> exists e vs, pEdge fuel from to = ORet (Some (e, vs)) /\
         forall I rho, coherent rho -> agrees I rho -> exact rho c -> (holdsIn I e <-> rho c = 0)) /\
      (blockOf to <> t -> blockOf to <> f -> pEdge fuel from to = ORet None).
  Proof.
    intros Ed Ne Hc Hw. destruct (condition_ok c Hc) as [n [e [vars [Se [Me Hb]]]]]. exists n. intros fuel L.
    split; [|split].
    - intros E. exists e, vars. rewrite (edge_ok from c t f to Ed Ne Hw), E, eqb_refl. cbn [orb]. rewrite Hb, byEdge_true by auto. split; [reflexivity|].
      intros I rho H1 H2 H3. unfold holdsIn. now rewrite (Me I rho H1 H2 H3).
    - intros E. exists (ENot e), vars. rewrite (edge_ok from c t f to Ed Ne Hw), E, eqb_refl, orb_true_r. rewrite Hb, byEdge_false by auto. cbn. unfold mkNot. rewrite Se.
      split; [reflexivity|]. intros I rho H1 H2 H3. unfold holdsIn. cbn. rewrite (Me I rho H1 H2 H3). unfold ofBool. destruct (Z.eqb_spec (rho c) 0); split; congruence || lia.
    - intros E1 E2. rewrite (edge_ok from c t f to Ed Ne Hw). apply Assoc.eqb_false in E1, E2. now rewrite E1, E2.
  Qed.
  (** phis: nothing is required *)
  Lemma phiValues_true ty l : forall fuel acc x, (forall I, value I (fst acc) <> 0) ->
    pPhiValues defs varName gepName fnName fnRet fuel ty l acc = ORet x -> forall I, value I (fst x) <> 0.
  Proof.
    induction l as [|v l IH]; intros fuel acc x Ha; cbn [pPhiValues]; [now intros [= <-]|].
    destruct (pPhiValue _ _ _ _ _ fuel ty v) as [| | | |r]; cbn [obind]; try discriminate. unfold mkOr.
    destruct (sortOf (fst acc)), (sortOf (fst r)); cbn [obind]; try discriminate. apply IH. intros I. cbn.
    destruct (Z.eqb_spec (value I (fst acc)) 0); [now apply Ha in e|]. cbn. lia.
  Qed.
  Lemma phi_true fuel v x : pPhi defs varName gepName fnName fnRet fuel v = ORet x -> forall I, holdsIn I (fst x).
  Proof.
    unfold pPhi. destruct (defs v); try discriminate. unfold holdsIn. destruct t; try discriminate; apply phiValues_true; cbn; lia.
  Qed.
  (** truncated loads: right if the condition is true *)
  Lemma trunc_true fuel v a p t f s n x : defs v = DCast (Trunc 1) a -> defs a = DLoad p -> reads a n SInt ->
    pCondBr fuel v t f s = ORet x -> forall I rho, coherent rho -> agrees I rho -> rho v <> 0 -> holdsIn I (fst x).
  Proof.
    intros Ed Ea Hr. unfold BranchCacheProofs.pCondBr. rewrite Ed, Ea. intros E I rho Hc Hag Hn.
    assert (K : exists vars, pLoad defs varName gepName fuel a p = ORet (EVar n SInt, vars)).
    { destruct (read_ok a n SInt Hr) as [_ [vars Hv]]. specialize (Hv fuel true). unfold BranchCacheProofs.pOperand, isConstantData in Hv. rewrite Ea in Hv. rewrite Ea in Hv. eauto. }
    destruct K as [vars K]. rewrite K in E. cbn in E. injection E as <-. cbn. unfold holdsIn. cbn.
    pose proof (Hc v) as Hv. rewrite Ed in Hv. specialize (Hv _ eq_refl). change (var I n SInt) with (varValue I n SInt). rewrite <- (Hag a n SInt Hr). rewrite Hv in Hn. unfold wrap in Hn. cbn in Hn.
    unfold zmod. cbn. pose proof (Z.mod_pos_bound (rho a) 2 ltac:(lia)) as B. destruct (Z.eqb_spec (rho a mod 2) 1) as [X|X]; [cbn; lia|].
    assert (Z : rho a mod 2 = 0) by lia. rewrite Z in Hn. cbn in Hn. congruence.
  Qed.
End Meaning.
