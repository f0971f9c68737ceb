(** Proofs about full constant propagation. *)
From Coq Require Import List Bool Arith ZArith Lia.
From Verif Require Import Assoc LatticeModel FullConstModel FullConstSpec.
From Verif Require IntraMonoModel IntraMonoSpec IntraMonoCover.
Import ListNotations.

Lemma latEqb_ok x y : latEqb x y = true <-> x = y.
Proof.
  unfold latEqb, ldEqb. destruct x as [|a|], y as [|b|]; cbn; split; try discriminate; try reflexivity.
  - intros E. apply Z.eqb_eq in E. congruence.
  - intros [= ->]. apply Z.eqb_refl.
Qed.
Lemma afind_mergeC k l r x : afind k (mergeC l r) = Some x <-> afind k l = Some x /\ afind k r = Some x.
Proof.
  unfold mergeC.
  set (f := fun kv : value * lat => match afind (fst kv) l, afind (fst kv) r with
                      | Some v, Some v' => if latEqb v v' then [(fst kv, v)] else []
                      | _, _ => []
                      end).
  assert (G : forall l', afind k (flat_map f l') = Some x <-> In k (map fst l') /\ afind k l = Some x /\ afind k r = Some x).
  { induction l' as [|[k' y] l' IH]; [cbn; split; [discriminate|intros [[] _]]|]. cbn [flat_map map In fst].
    assert (A : f (k', y) = match afind k' l, afind k' r with
                      | Some v, Some v' => if latEqb v v' then [(k', v)] else []
                      | _, _ => []
                      end) by reflexivity. rewrite A. clear A.
    destruct (afind k' l) as [v|] eqn:E1; [destruct (afind k' r) as [v'|] eqn:E2; [destruct (latEqb v v') eqn:E3|]|];
      cbn [app afind]; [apply latEqb_ok in E3; subst v'; destruct (eq_dec k k') as [->|N]| | |].
    - rewrite E1, E2. split; [intros X; auto|intros (_ & X & _); exact X].
    - rewrite IH. split; [tauto|]. intros ([X|X] & Y); [congruence|auto].
    - rewrite IH. split; [tauto|]. intros ([<-|X] & Y & Z); [|auto]. rewrite E1 in Y. rewrite E2 in Z.
      assert (v = v') by congruence. apply latEqb_ok in H. congruence.
    - rewrite IH. split; [tauto|]. intros ([<-|X] & Y & Z); [congruence|auto].
    - rewrite IH. split; [tauto|]. intros ([<-|X] & Y & Z); [congruence|auto]. }
  rewrite G. split; [tauto|]. intros (A & B). split; [|auto]. apply afind_In in A. apply in_map_iff. exists (k, x). auto.
Qed.
Lemma within_ok l r : within l r = true -> forall k x, afind k l = Some x -> afind k r = Some x.
Proof.
  unfold within. rewrite forallb_forall. intros W k x E. pose proof (W (k, x) (afind_In _ _ _ E)) as Q. cbn [fst] in Q.
  rewrite E in Q. destruct (afind k r) as [y|]; [|discriminate]. apply latEqb_ok in Q. congruence.
Qed.

(** what [y] says, [x] says too *)
Definition says (x y : M) : Prop :=
  match y with
  | None => True
  | Some m => exists m', x = Some m' /\ forall k v, afind k m = Some v -> afind k m' = Some v
  end.
Lemma says_bounded code starts : IntraMonoCover.bounded (problem code starts) says.
Proof.
  split; cbn.
  - intros [m|]; cbn; eauto.
  - intros x y [m|]; cbn; [|auto]. intros A (m' & -> & B). cbn in A. destruct A as (m'' & -> & A). eauto.
  - intros [l|] [r|]; cbn; auto. exists l. split; [reflexivity|]. intros k v E. apply afind_mergeC in E. tauto.
  - intros [l|] [r|]; cbn; auto. exists r. split; [reflexivity|]. intros k v E. apply afind_mergeC in E. tauto.
  - intros [l|] [r|]; cbn; try discriminate; auto. intros E. apply andb_true_iff in E. destruct E as [_ E].
    exists l. split; [reflexivity|]. intros k v X. exact (within_ok r l E k v X).
Qed.

Section S.
  Variable code : nat -> instr.
  Variable args : nat -> rv.
  Variable arith : opcode -> Z -> Z -> Z -> Z -> Prop.
  Hypothesis exact : forall op w a b z, arith op w a b z -> exactOp op a b z.
  Hypothesis Si : simple code.
  Notation right := (right code args).
  Notation eval := (eval args).
  Notation step := (step code args arith).

  (** stack variables are at different places *)
  Definition apart (s : state) : Prop :=
    forall n b a, code n = IAlloca b -> env s n = Some (RPtr a) ->
      a < next s /\ forall n' b', code n' = IAlloca b' -> env s n' = Some (RPtr a) -> n' = n.
  Definition typed (s : state) : Prop := forall n b x, code n = IAlloca b -> env s n = Some x -> exists a, x = RPtr a.
  Lemma upd_eq {A} (f : nat -> option A) n x : upd f n x n = x.
  Proof. unfold upd. rewrite Nat.eqb_refl. reflexivity. Qed.
  Lemma upd_neq {A} (f : nat -> option A) n x k : k <> n -> upd f n x k = f k.
  Proof. intros N. unfold upd. apply Nat.eqb_neq in N. rewrite N. reflexivity. Qed.
  Lemma apart_step n s s' : step n s s' -> apart s -> typed s -> apart s' /\ typed s'.
  Proof.
    intros St A T.
    assert (R : forall x mm, (forall b, code n <> IAlloca b) -> apart (mkS (upd (env s) n x) mm (next s)) /\ typed (mkS (upd (env s) n x) mm (next s))).
    { intros x mm N. split.
      - intros n1 b a C E. cbn [env next] in *. assert (N1 : n1 <> n) by (intros ->; exact (N b C)). rewrite upd_neq in E by exact N1.
        destruct (A n1 b a C E) as [L I]. split; [exact L|]. intros n2 b2 C2 E2.
        assert (N2 : n2 <> n) by (intros ->; exact (N b2 C2)). rewrite upd_neq in E2 by exact N2. eauto.
      - intros n1 b y C E. cbn [env] in *. assert (N1 : n1 <> n) by (intros ->; exact (N b C)). rewrite upd_neq in E by exact N1. eauto. }
    destruct St as [int C|v int p a x C Ep Ev I|p a x C Ep Em|op w l r a b z C El Er Ar|x mem' C|x C].
    - split.
      + intros n1 b a C1 E. cbn [env next] in *. destruct (Nat.eq_dec n1 n) as [->|N1].
        * rewrite upd_eq in E. injection E as <-. split; [lia|]. intros n2 b2 C2 E2. destruct (Nat.eq_dec n2 n) as [->|N2]; [reflexivity|].
          rewrite upd_neq in E2 by exact N2. destruct (A n2 b2 (next s) C2 E2) as [L _]. lia.
        * rewrite upd_neq in E by exact N1. destruct (A n1 b a C1 E) as [L Q]. split; [lia|]. intros n2 b2 C2 E2.
          destruct (Nat.eq_dec n2 n) as [->|N2]; [rewrite upd_eq in E2; injection E2 as <-; lia|]. rewrite upd_neq in E2 by exact N2. eauto.
      + intros n1 b y C1 E. cbn [env] in E. destruct (Nat.eq_dec n1 n) as [->|N1]; [rewrite upd_eq in E; injection E as <-; eauto|].
        rewrite upd_neq in E by exact N1. eauto.
    - split; [intros n1 b a1 C1 E; exact (A n1 b a1 C1 E)|exact T].
    - apply R. congruence.
    - apply R. congruence.
    - apply R. congruence.
    - apply R. congruence.
  Qed.

  Definition sound (s : state) (m : cont) : Prop := forall k c, afind k m = Some (LVal c) -> right s k c.
  Lemma isBot_ok x : isBot x = false -> x <> LBot.
  Proof. destruct x; cbn; congruence. Qed.
  Lemma checked_ok z z' : checked z = Some z' -> z' = z.
  Proof. unfold checked. destruct (in64 z); congruence. Qed.
  (** what is known of others stays *)
  Lemma right_reg s n x k c : right s k c -> k <> VInst n -> right (mkS (upd (env s) n x) (mem s) (next s)) k c.
  Proof.
    unfold FullConstSpec.right. destruct k as [j|z|j]; auto. intros R N. assert (J : j <> n) by congruence. cbn [env mem].
    rewrite upd_neq by exact J. exact R.
  Qed.
  Lemma operand_right s v x y : eval s v = Some (RInt x) -> forall m, sound s m -> typed s -> operand m v = Some (LVal y) -> y = x.
  Proof.
    intros E m So T O. unfold operand in O. destruct v as [j|z|j].
    - destruct (afind (VInst j) m) as [w|] eqn:F; [|discriminate]. injection O as ->. apply So in F. cbn in F, E.
      destruct (code j) eqn:C; try congruence. destruct F as (a & F & _). congruence.
    - cbn in E. destruct (checked z) eqn:K; [|discriminate]. apply checked_ok in K. cbn in O. congruence.
    - destruct (afind (VOther j) m) as [w|] eqn:F; [|discriminate]. injection O as ->. apply So in F. cbn in F, E. congruence.
  Qed.
  Lemma bin_right op w a b z x : arith op w a b z -> executeBinOperation op a b = Some (LVal x) -> x = z.
  Proof.
    intros A E. apply exact in A. unfold executeBinOperation in E.
    assert (V : forall y, val (checked y) = Some (LVal x) -> x = y).
    { intros y Q. destruct (checked y) eqn:K; [|discriminate]. apply checked_ok in K. cbn in Q. congruence. }
    destruct op; cbn in A; try (apply V in E; congruence); try discriminate;
      (destruct (b =? 0)%Z; [discriminate|]); try (apply V in E; congruence);
      (destruct (checked (Z.quot a b)); [|discriminate]); congruence.
  Qed.
  Lemma store_cases m v int p m' : store m v int p = Some m' ->
    (forall c, afind p m = Some (LVal c) -> (exists z, v = VConst z) \/ (int = true /\ exists x, afind v m = Some x /\ x <> LTop)) ->
    (m' = m /\ forall c, afind p m <> Some (LVal c)) \/
    (exists y, m' = aset p y m /\ (y = LBot \/ exists z, y = LVal z /\ (v = VConst z \/ (int = true /\ afind v m = Some (LVal z))))).
  Proof.
    intros St Kn. unfold store in St. cbv zeta in St.
    assert (Second : forall m', Some (if int then storeInt m v p else m) = Some m' ->
      ((exists c, afind p m = Some (LVal c)) -> int = true /\ exists x, afind v m = Some x /\ x <> LTop) ->
      (m' = m /\ forall c, afind p m <> Some (LVal c)) \/
      (exists y, m' = aset p y m /\ (y = LBot \/ exists z, y = LVal z /\ (v = VConst z \/ (int = true /\ afind v m = Some (LVal z)))))).
    { clear. intros m' [= <-] Kn. destruct (afind p m) as [y|] eqn:Fp.
      - destruct y as [|c|].
        + destruct int; [|left; split; [reflexivity|congruence]]. unfold storeInt. rewrite Fp.
          destruct (afind v m) as [[|d|]|]; cbn [isBot]; try (left; split; [reflexivity|congruence]); right; eexists; split; try reflexivity; eauto.
          right. exists d. auto.
        + destruct (Kn (ex_intro _ c eq_refl)) as (-> & x & Fv & N). unfold storeInt. rewrite Fv, Fp.
          destruct x as [|d|]; [congruence| |]; cbn [isBot]; right; eexists; split; try reflexivity; eauto.
          right. exists d. auto.
        + left. split; [|congruence]. destruct int; [|reflexivity]. unfold storeInt. rewrite Fp. destruct (afind v m) as [[|d|]|]; reflexivity.
      - left. split; [|congruence]. destruct int; [|reflexivity]. unfold storeInt. rewrite Fp. destruct (afind v m) as [[|d|]|]; reflexivity. }
    destruct v as [j|z|j].
    - apply Second; [exact St|]. intros (c & F). destruct (Kn c F) as [(z & X)|X]; [discriminate|exact X].
    - destruct (afind p m) as [y|] eqn:Fp.
      + destruct (isBot y) eqn:By.
        * apply Second; [exact St|]. intros (c & F). injection F as ->. discriminate.
        * destruct (checked z) as [z'|] eqn:K; [|discriminate]. apply checked_ok in K. subst z'. injection St as <-.
          right. exists (LVal z). split; [reflexivity|]. right. exists z. auto.
      + apply Second; [exact St|]. intros (c & F). discriminate.
    - apply Second; [exact St|]. intros (c & F). destruct (Kn c F) as [(z & X)|X]; [discriminate|exact X].
  Qed.
  Lemma flow_sound n s s' m m' : step n s s' -> apart s -> typed s -> sound s m ->
    (forall c, afind (VInst n) m <> Some (LVal c)) -> knownStore code n m -> flow n (code n) m = Some m' -> sound s' m'.
  Proof.
    intros St A T So First Kn Fl.
    assert (Reg : forall x, sound (mkS (upd (env s) n x) (mem s) (next s)) m).
    { intros x k c F. apply right_reg; [apply So, F|]. intros ->. exact (First c F). }
    destruct St as [int C|v int p a x C Ep Ev I|p a x C Ep Em|op w l r a b z C El Er Ar|x mem' C|x C]; rewrite C in Fl; cbn [flow] in Fl.
    - (* alloca *)
      assert (G : sound (mkS (upd (env s) n (Some (RPtr (next s)))) (upd (mem s) (next s) None) (S (next s))) m).
      { intros k c F. assert (N : k <> VInst n) by (intros ->; exact (First c F)). apply So in F. unfold FullConstSpec.right in *.
        destruct k as [j|z|j]; auto. assert (J : j <> n) by congruence. cbn [env mem]. rewrite upd_neq by exact J.
        destruct (code j) as [b| | | | |] eqn:Cj; auto. destruct F as (a & E1 & E2). exists a. split; [exact E1|].
        destruct (A j b a Cj E1) as [L _]. rewrite upd_neq by lia. exact E2. }
      destruct int; [|injection Fl as <-; exact G]. injection Fl as <-. unfold emplace.
      destruct (afind (VInst n) m) eqn:F; [exact G|]. intros k c X. rewrite afind_aset in X.
      destruct (eq_dec k (VInst n)); [discriminate|]. apply G, X.
    - (* store *)
      destruct (Si n) as [_ D]. destruct (D v int p C) as (pa & b & -> & Cp). cbn in Ep.
      assert (Others : forall m0, (forall k c, k <> VInst pa -> afind k m0 = Some (LVal c) -> afind k m = Some (LVal c)) ->
        (forall c, afind (VInst pa) m0 = Some (LVal c) -> x = RInt c) -> sound (mkS (env s) (upd (mem s) a (Some x)) (next s)) m0).
      { intros m0 K1 K2 k c F. destruct (eq_dec k (VInst pa)) as [->|N].
        - apply K2 in F. subst x. unfold FullConstSpec.right. rewrite Cp. exists a. cbn. rewrite upd_eq. auto.
        - apply K1 in F; [|exact N]. apply So in F. unfold FullConstSpec.right in *. destruct k as [j|z|j]; auto. cbn [env mem].
          destruct (code j) as [b'| | | | |] eqn:Cj; auto. destruct F as (a' & E1 & E2). exists a'. split; [exact E1|].
          rewrite upd_neq; [exact E2|]. intros ->. destruct (A pa b a Cp Ep) as [_ U]. apply N. f_equal. exact (U j b' Cj E1). }
      destruct (store_cases m v int (VInst pa) m' Fl (fun c => Kn v int (VInst pa) c C)) as [[-> N]|(y & -> & Y)].
      + apply Others; [auto|]. intros c F. exfalso. exact (N c F).
      + apply Others.
        * intros k c N. rewrite afind_aset. destruct (eq_dec k (VInst pa)); [contradiction|auto].
        * intros c. rewrite afind_aset. destruct (eq_dec (VInst pa) (VInst pa)); [|contradiction]. intros [= ->].
          destruct Y as [Y|(z & [= <-] & [->|[-> F]])]; [discriminate|cbn in Ev; congruence|].
          destruct (I eq_refl) as (z & ->). apply So in F. unfold FullConstSpec.right in F.
          destruct v as [j|z0|j]; cbn in Ev; [|congruence|congruence].
          destruct (code j) eqn:Cj; try congruence. destruct F as (a' & E1 & _). congruence.
    - (* load *)
      injection Fl as <-. destruct (afind p m) as [y|] eqn:Fp; [|apply Reg]. intros k c X. rewrite afind_aset in X.
      destruct (eq_dec k (VInst n)) as [->|N]; [|apply Reg, X]. injection X as ->. apply So in Fp.
      unfold FullConstSpec.right. rewrite C. cbn [env]. rewrite upd_eq.
      unfold FullConstSpec.right in Fp. destruct p as [j|z|j]; cbn in Ep; [|congruence|congruence].
      destruct (code j) as [b| | | | |] eqn:Cj; try congruence. destruct Fp as (a' & E1 & E2). congruence.
    - (* binary operation *)
      destruct (operand m l) as [lx|] eqn:Ol; [|discriminate]. destruct (operand m r) as [rx|] eqn:Or; [|destruct lx; discriminate].
      assert (Bot : sound (mkS (upd (env s) n (Some (RInt z))) (mem s) (next s)) (aset (VInst n) LBot m)).
      { intros k c X. rewrite afind_aset in X. destruct (eq_dec k (VInst n)); [discriminate|]. apply Reg, X. }
      destruct lx as [|la|]; [injection Fl as <-; exact Bot| |injection Fl as <-; exact Bot].
      destruct rx as [|rb|]; [injection Fl as <-; exact Bot| |injection Fl as <-; exact Bot].
      apply (operand_right s l a la El m So T) in Ol. apply (operand_right s r b rb Er m So T) in Or. subst la rb.
      destruct (executeBinOperation op a b) as [y|] eqn:X; [|discriminate]. injection Fl as <-.
      intros k c Y. rewrite afind_aset in Y. destruct (eq_dec k (VInst n)) as [->|N]; [|apply Reg, Y]. injection Y as ->.
      unfold FullConstSpec.right. rewrite C. cbn [env]. rewrite upd_eq. rewrite (bin_right op w a b z c Ar X). reflexivity.
    - destruct (Si n) as [N _]. contradiction.
    - injection Fl as <-. apply Reg.
  Qed.

  (** ** Executions *)
  Variable succs : nat -> list nat.
  Variable starts : list nat.
  Notation run := (run code args arith succs starts).
  Lemma run_visited tr n s : run tr n s -> forall x, In x tr -> exists tr' s', run tr' x s' /\ length tr' < length tr.
  Proof.
    induction 1 as [n I|tr n s m s' R IH St Su]; intros x Ix; [destruct Ix|]. rewrite app_length. cbn.
    apply in_app_iff in Ix. destruct Ix as [Ix|[<-|[]]].
    - destruct (IH x Ix) as (tr' & s1 & R' & L). exists tr', s1. split; [exact R'|lia].
    - exists tr, s. split; [exact R|lia].
  Qed.
  Lemma run_first tr n s : run tr n s -> exists tr1 s1, run tr1 n s1 /\ length tr1 <= length tr /\ ~ In n tr1.
  Proof.
    remember (length tr) as k eqn:K. revert tr s K. induction k as [k IH] using lt_wf_ind. intros tr s -> R.
    destruct (in_dec Nat.eq_dec n tr) as [I|I]; [|exists tr, s; auto].
    destruct (run_visited tr n s R n I) as (tr' & s' & R' & L). destruct (IH (length tr') L tr' s' eq_refl R') as (t & s1 & X & Y & Z).
    exists t, s1. split; [exact X|]. split; [lia|exact Z].
  Qed.
  Lemma run_env tr n s : run tr n s -> forall x, env s x <> None -> In x tr.
  Proof.
    induction 1 as [n I|tr n s m s' R IH St Su]; intros x E; [cbn in E; congruence|].
    assert (U : forall y, upd (env s) n y x <> None -> In x (tr ++ [n])).
    { intros y X. destruct (Nat.eq_dec x n) as [->|N]; [apply in_or_app; right; left; reflexivity|].
      rewrite upd_neq in X by exact N. apply in_or_app. left. apply IH, X. }
    destruct St; cbn [env] in E; try (exact (U _ E)). apply in_or_app. left. apply IH, E.
  Qed.
  Lemma run_apart tr n s : run tr n s -> apart s /\ typed s.
  Proof.
    induction 1 as [n I|tr n s m s' R [A T] St Su]; [|exact (apart_step n s s' St A T)].
    split; [intros x b a C E|intros x b y C E]; discriminate.
  Qed.
  Lemma right_defined s n c : right s (VInst n) c -> env s n <> None.
  Proof. unfold FullConstSpec.right. destruct (code n); try congruence. intros (a & E & _). congruence. Qed.

  (** any table that respects the edges is right *)
  Variable before : nat -> M.
  Hypothesis Start : forall n, In n starts -> before n = Some [].
  Hypothesis Edge : forall n m, In m (succs n) -> (exists tr s, run tr n s) -> says (bindM (before n) (flow n (code n))) (before m).
  Hypothesis Known : forall n m, before n = Some m -> knownStore code n m.

  Lemma table_sound tr : forall n s, run tr n s -> forall m, before n = Some m -> sound s m.
  Proof.
    remember (length tr) as k eqn:K. revert tr K. induction k as [k IH] using lt_wf_ind. intros tr -> n s R m B.
    destruct R as [n I|tr n s m1 s' R St Su].
    - rewrite (Start n I) in B. injection B as <-. intros k' c X. discriminate.
    - assert (Ed := Edge n m1 Su (ex_intro _ tr (ex_intro _ s R))). rewrite B in Ed. cbn in Ed. destruct Ed as (out & Eo & Inc).
      destruct (before n) as [mn|] eqn:Bn; [|discriminate]. cbn in Eo.
      rewrite app_length in IH. cbn in IH.
      assert (So : sound s mn) by (apply (IH (length tr) ltac:(lia) tr eq_refl n s R mn Bn)).
      destruct (run_apart tr n s R) as [A T].
      assert (First : forall c, afind (VInst n) mn <> Some (LVal c)).
      { intros c F. destruct (run_first tr n s R) as (tr1 & s1 & R1 & L1 & N1).
        assert (So1 : sound s1 mn) by (apply (IH (length tr1) ltac:(lia) tr1 eq_refl n s1 R1 mn Bn)).
        apply So1, right_defined in F. apply N1. exact (run_env tr1 n s1 R1 n F). }
      pose proof (flow_sound n s s' mn out St A T So First (Known n mn Bn) Eo) as G.
      intros k' c X. apply G, Inc, X.
  Qed.
  Lemma table_sound_after tr n s s' m : run tr n s -> step n s s' -> bindM (before n) (flow n (code n)) = Some m -> sound s' m.
  Proof.
    intros R St B. destruct (before n) as [mn|] eqn:Bn; [|discriminate]. cbn in B.
    destruct (run_apart tr n s R) as [A T]. pose proof (table_sound tr n s R mn Bn) as So.
    assert (First : forall c, afind (VInst n) mn <> Some (LVal c)).
    { intros c F. destruct (run_first tr n s R) as (tr1 & s1 & R1 & L1 & N1).
      apply (table_sound tr1 n s1 R1 mn Bn), right_defined in F. apply N1. exact (run_env tr1 n s1 R1 n F). }
    exact (flow_sound n s s' mn m St A T So First (Known n mn Bn) B).
  Qed.
End S.
