(** C63: full constant propagation in the monotone framework. *)
From Coq Require Import List Bool Arith ZArith Lia.
From Verif Require Import Assoc LatticeModel FullConstModel FullConstSpec FullConstProofs.
From Verif Require IntraMonoModel IntraMonoSpec IntraMonoProofs IntraMonoCover.
Import ListNotations.

(** ** Containers *)
(** merge keeps what both sides agree on; equal_to compares them as maps. *)
Theorem C63_merge_and_equal l r :
  (forall k x, afind k (mergeC l r) = Some x <-> afind k l = Some x /\ afind k r = Some x) /\
  (equalC l r = true <-> forall k, afind k l = afind k r).
Proof.
  split; [intros k x; apply afind_mergeC|]. unfold equalC. rewrite andb_true_iff. split.
  - intros [A B] k. destruct (afind k l) as [x|] eqn:E; [symmetry; exact (within_ok l r A k x E)|].
    destruct (afind k r) as [y|] eqn:F; [|reflexivity]. apply (within_ok r l B) in F. congruence.
  - assert (W : forall a b : cont, (forall k, afind k a = afind k b) -> within a b = true).
    { intros a b H. unfold within. apply forallb_forall. intros [k x] I. cbn [fst].
      assert (exists y, afind k a = Some y) as (y & E).
      { clear H. induction a as [|[k' z] a IH]; [destruct I|]. cbn. destruct (eq_dec k k'); [eauto|]. destruct I as [[= -> ->]|I]; [congruence|auto]. }
      rewrite <- H, E. apply latEqb_ok. reflexivity. }
    intros H. split; apply W; auto.
Qed.
Print Assumptions C63_merge_and_equal.

(** ** Constants *)
Notation seedsAt starts := (map (fun n => (n, Some (@nil (value * lat)))) starts).
(** the arithmetic of executions in which nothing wraps *)
Definition unwrapped (op : opcode) (w a b z : Z) : Prop := llvmOp op w a b z /\ exactOp op a b z.

(** If the solver ends, then after every instruction of every execution the
    constants of the result are right.  Missing: calls and stores through other
    pointers; known variables that are overwritten by unknown values; operations
    that wrap; the end of the solver (all but the last refuted below). *)
Theorem C63_constants_are_right_partial code args starts c fuel A :
  let P := problem code starts in
  simple code -> IntraMonoSpec.graph c P -> IntraMonoSpec.entrySeeds c P ->
  IntraMonoModel.loop c P fuel (IntraMonoModel.initialize c P) = Some A ->
  (forall n m, IntraMonoModel.get P n A = Some m -> knownStore code n m) ->
  exists R, IntraMonoModel.solve c P fuel = Some R /\
    forall tr n s s' m, run code args unwrapped (IntraMonoModel.succs c) starts tr n s -> step code args unwrapped n s s' ->
      IntraMonoModel.getResultsAt P n R = Some m ->
      forall k z, afind k m = Some (LVal z) -> right code args s' k z.
Proof.
  intros P Si Gr Es Lo Kn. unfold IntraMonoModel.solve. rewrite Lo. cbn [option_map]. eexists. split; [reflexivity|].
  intros tr n s s' m R St Rs.
  destruct (IntraMonoCover.inv_loop c P says (says_bounded code starts) Gr fuel _ A (IntraMonoCover.inv_init c P says Gr Es) Lo) as (_ & C & Ss & Pr).
  assert (Seed : forall x, In x starts -> IntraMonoSpec.inV c P x /\ IntraMonoModel.preds c x = []).
  { intros x I. destruct Es as [_ E]. apply (E x (Some [])). cbn. apply in_map_iff. eauto. }
  assert (Vr : forall tr n s, run code args unwrapped (IntraMonoModel.succs c) starts tr n s -> IntraMonoSpec.inV c P n).
  { induction 1 as [x I|tr0 x s0 y s1 R0 IH St0 Su]; [apply Seed, I|]. exact (IntraMonoSpec.succs_closed _ _ Gr x y IH Su). }
  pose proof (Vr tr n s R) as Vn. unfold IntraMonoModel.getResultsAt in Rs. rewrite (IntraMonoProofs.results_get P A n (Pr n Vn)) in Rs.
  apply (table_sound_after code args unwrapped (fun op w a b z X => proj2 X) Si (IntraMonoModel.succs c) starts
          (fun x => IntraMonoModel.get P x A)) with (tr := tr) (n := n) (s := s); auto.
  - intros x I. destruct (Seed x I) as [Vx Px]. destruct (Ss x Vx Px) as [(f & If & ->)|(_ & N & _)].
    + cbn in If. apply in_map_iff in If. destruct If as (y & [= -> <-] & _). reflexivity.
    + exfalso. apply (N (Some [])). cbn. apply in_map_iff. eauto.
  - intros x y I (tr0 & s0 & R0). destruct (C x y (Vr tr0 x s0 R0) I) as [[]|X]. exact X.
Qed.
Print Assumptions C63_constants_are_right_partial.

(** When nothing wraps: the result fits, and operands of unsigned operations are
    not negative. *)
Theorem C63_fitting_operations op w a b z : (1 <= w)%Z -> llvmOp op w a b z ->
  (forall y, exactOp op a b y -> op <> OtherOp -> (- 2 ^ (w - 1) <= y < 2 ^ (w - 1))%Z) ->
  (op = UDiv \/ op = URem -> (0 <= a < 2 ^ w /\ 0 <= b < 2 ^ w)%Z) -> unwrapped op w a b z.
Proof.
  intros W L F U. split; [exact L|].
  assert (P : (2 ^ w = 2 * 2 ^ (w - 1))%Z). { rewrite <- Z.pow_succ_r by lia. f_equal. lia. }
  assert (Q : (0 < 2 ^ (w - 1))%Z) by (apply Z.pow_pos_nonneg; lia).
  assert (S : forall y, (- 2 ^ (w - 1) <= y < 2 ^ (w - 1))%Z -> signed w y = y).
  { intros y Y. unfold signed. rewrite Z.mod_small; lia. }
  destruct op; cbn in *.
  - rewrite S in L; [exact L|]. apply F; [reflexivity|discriminate].
  - rewrite S in L; [exact L|]. apply F; [reflexivity|discriminate].
  - rewrite S in L; [exact L|]. apply F; [reflexivity|discriminate].
  - destruct U as [Ua Ub]; [auto|]. destruct L as [N ->]. unfold unsigned. rewrite (Z.mod_small a), (Z.mod_small b) by lia.
    rewrite <- Z.quot_div_nonneg by lia. apply S. apply F; [reflexivity|discriminate].
  - destruct L as [_ ->]. apply S. apply F; [reflexivity|discriminate].
  - destruct U as [Ua Ub]; [auto|]. destruct L as [N ->]. unfold unsigned. rewrite (Z.mod_small a), (Z.mod_small b) by lia.
    rewrite <- Z.rem_mod_nonneg by lia. apply S. apply F; [reflexivity|discriminate].
  - destruct L as [_ ->]. reflexivity.
  - exact Logic.I.
Qed.
Print Assumptions C63_fitting_operations.
Example fitting_ex : unwrapped UDiv 32 7 2 3 /\ unwrapped Add 8 100 27 127.
Proof. split; split; try reflexivity. split; [discriminate|reflexivity]. Qed.

(** ** Calls *)
(** formals get what is known of the actuals, and constants; a call gets what is
    known of the returned value *)
Theorem C63_call_and_return actuals formals callSite (m : cont) :
  (NoDup formals -> length actuals <= length formals -> (forall z, In (VConst z) actuals -> in64 z = true) ->
   (forall z, afind (VConst z) m = None) ->
   exists out, callFlow actuals formals false m = Some out /\
     forall f x, afind f out = Some x <-> exists i a, nth_error formals i = Some f /\ nth_error actuals i = Some a /\
       (afind a m = Some x \/ exists z, a = VConst z /\ x = LVal z)) /\
  (forall v, (forall z, v = VConst z -> in64 z = true) -> (forall z, afind (VConst z) m = None) ->
     exists out, returnFlow callSite (ERet (Some (v, true))) m = Some out /\
       forall k x, afind k out = Some x <-> k = VInst callSite /\ (afind v m = Some x \/ exists z, v = VConst z /\ x = LVal z)).
Proof.
  split.
  - intros Nd Le Co Nc.
    assert (G : forall as_ fs out, NoDup fs -> length as_ <= length fs -> (forall z, In (VConst z) as_ -> in64 z = true) ->
      (forall f, In f fs -> afind f out = None) ->
      exists out', mapArgs m as_ fs out = Some out' /\
        forall f x, afind f out' = Some x <-> afind f out = Some x \/ exists i a, nth_error fs i = Some f /\ nth_error as_ i = Some a /\
          (afind a m = Some x \/ exists z, a = VConst z /\ x = LVal z)).
    { induction as_ as [|a as_ IH]; intros fs out N L K O.
      - exists out. split; [reflexivity|]. intros f x. split; [auto|]. intros [X|(i & a & _ & X & _)]; [exact X|destruct i; discriminate].
      - destruct fs as [|f fs]; [cbn in L; lia|]. inversion N as [|? ? N1 N2]; subst. cbn [mapArgs].
        assert (St : forall y, (forall x, (y = Some x <-> afind a m = Some x \/ exists z, a = VConst z /\ x = LVal z)) ->
          exists out', mapArgs m as_ fs (match y with Some x => emplace f x out | None => out end) = Some out' /\
          forall f' x, afind f' out' = Some x <-> afind f' out = Some x \/ exists i a', nth_error (f :: fs) i = Some f' /\ nth_error (a :: as_) i = Some a' /\
          (afind a' m = Some x \/ exists z, a' = VConst z /\ x = LVal z)).
        { intros y Y. assert (Of : afind f out = None) by (apply O; left; reflexivity).
          destruct (IH fs (match y with Some x => emplace f x out | None => out end) N2) as (out' & E & H).
          - cbn in L. lia.
          - intros z I. apply K. right. exact I.
          - intros g I. assert (g <> f) by (intros ->; contradiction). destruct y; [unfold emplace; rewrite Of, afind_aset; destruct (eq_dec g f); [contradiction|]|];
              apply O; right; exact I.
          - exists out'. split; [exact E|]. intros f' x. rewrite H. split.
            + intros [X|(i & a' & I1 & I2 & X)]; [|right; exists (S i), a'; auto].
              destruct y as [y|]; [|auto]. unfold emplace in X. rewrite Of, afind_aset in X. destruct (eq_dec f' f) as [->|]; [|auto].
              injection X as ->. right. exists 0, a. split; [reflexivity|]. split; [reflexivity|]. apply Y. reflexivity.
            + intros [X|([|i] & a' & I1 & I2 & X)].
              * left. destruct y; [|exact X]. unfold emplace. rewrite Of, afind_aset. destruct (eq_dec f' f) as [->|]; [congruence|exact X].
              * cbn in I1, I2. injection I1 as <-. injection I2 as <-. apply Y in X. subst y. left. unfold emplace. rewrite Of, afind_aset.
                destruct (eq_dec f f); [reflexivity|contradiction].
              * right. exists i, a'. auto. }
        destruct a as [j|z|j].
        + apply (St (afind (VInst j) m)). intros x. split; [auto|]. intros [X|(z & X & _)]; [exact X|discriminate].
        + rewrite Nc. unfold checked. rewrite (K z (or_introl eq_refl)). apply (St (Some (LVal z))). intros x. rewrite Nc. split.
          * intros [= <-]. right. eauto.
          * intros [X|(z' & [= <-] & ->)]; [discriminate|reflexivity].
        + apply (St (afind (VOther j) m)). intros x. split; [auto|]. intros [X|(z & X & _)]; [exact X|discriminate]. }
    destruct (G actuals formals [] Nd Le Co) as (out & E & H); [reflexivity|]. exists out. split.
    + unfold callFlow. destruct actuals; exact E.
    + intros f x. rewrite H. split; [intros [X|X]; [discriminate|exact X]|auto].
  - intros v K Nc. unfold returnFlow.
    assert (One : forall (y : lat) k x, afind k [(VInst callSite, y)] = Some x <-> k = VInst callSite /\ y = x).
    { intros y k x. cbn. destruct (eq_dec k (VInst callSite)); split; try discriminate; try tauto.
      - intros [= <-]. auto.
      - intros [_ ->]. reflexivity. }
    destruct v as [j|z|j].
    + eexists. split; [reflexivity|]. intros k x. destruct (afind (VInst j) m) as [y|].
      * rewrite One. split; [intros [-> ->]; auto|]. intros [-> [X|(z & X & _)]]; [split; congruence|discriminate].
      * cbn. split; [discriminate|]. intros [_ [X|(z & X & _)]]; discriminate.
    + unfold checked. rewrite (K z eq_refl). eexists. split; [reflexivity|]. intros k x. rewrite One, Nc. split.
      * intros [-> <-]. split; [reflexivity|]. right. eauto.
      * intros [-> [X|(z' & [= <-] & ->)]]; [discriminate|auto].
    + eexists. split; [reflexivity|]. intros k x. destruct (afind (VOther j) m) as [y|].
      * rewrite One. split; [intros [-> ->]; auto|]. intros [-> [X|(z & X & _)]]; [split; congruence|discriminate].
      * cbn. split; [discriminate|]. intros [_ [X|(z & X & _)]]; discriminate.
Qed.
Print Assumptions C63_call_and_return.
Example call_ex : callFlow [VConst 3; VInst 4; VInst 5] [VOther 0; VOther 1; VOther 2] false [(VInst 4, LVal 9%Z)] =
  Some [(VOther 0, LVal 3%Z); (VOther 1, LVal 9%Z)].
Proof. reflexivity. Qed.

(** Returning from a function without a value dereferences a null pointer; joins
    forget everything. *)
Theorem C63_void_return_refuted : exists callSite m, returnFlow callSite (ERet None) m = None.
Proof. exists 0, []. reflexivity. Qed.
Print Assumptions C63_void_return_refuted.
(** More arguments than parameters (a call through a cast pointer): out of bounds. *)
Theorem C63_surplus_refuted : exists actuals formals m, callFlow actuals formals false m = None.
Proof. exists [VConst 1; VConst 2], [VOther 0], []. reflexivity. Qed.
Print Assumptions C63_surplus_refuted.
Theorem C63_inter_merge_refuted : exists l r k x, afind k l = Some x /\ afind k r = Some x /\ afind k (interMerge l r) = None.
Proof. exists [(VInst 0, LVal 5%Z)], [(VInst 0, LVal 5%Z)], (VInst 0), (LVal 5%Z). repeat split. Qed.
Print Assumptions C63_inter_merge_refuted.

(** ** Straight code and branches, for examples *)
Definition codeOf (l : list instr) (n : nat) : instr := nth n l IOther.
Definition straight (k : nat) : IntraMonoModel.cfg nat unit :=
  IntraMonoModel.mkCfg (fun _ => seq 0 k) (fun _ => seq 0 k) (fun n => if S n <? k then [S n] else [])
    (fun n => if n <? k then match n with 0 => [] | S p => [p] end else []) (fun _ _ => false).
Definition branch : IntraMonoModel.cfg nat unit :=
  IntraMonoModel.mkCfg (fun _ => seq 0 8) (fun _ => seq 0 8)
    (fun n => match n with 0 => [1] | 1 => [2] | 2 => [3] | 3 => [4; 5] | 4 => [6] | 5 => [6] | 6 => [7] | _ => [] end)
    (fun n => match n with 1 => [0] | 2 => [1] | 3 => [2] | 4 => [3] | 5 => [3] | 6 => [4; 5] | 7 => [6] | _ => [] end)
    (fun s d => d =? 6).
Lemma straight_V k P n : IntraMonoModel.entryPoints P = [tt] -> IntraMonoSpec.inV (M := M) (straight k) P n <-> n < k.
Proof.
  intros E. unfold IntraMonoSpec.inV. rewrite E. cbn. split.
  - intros (f & _ & I). apply in_seq in I. lia.
  - intros L. exists tt. split; [auto|]. apply in_seq. lia.
Qed.
Lemma straight_graph k l : 1 <= k -> IntraMonoSpec.graph (straight k) (problem (codeOf l) [0]) /\ IntraMonoSpec.entrySeeds (straight k) (problem (codeOf l) [0]).
Proof.
  intros K. split.
  - constructor.
    + intros f n _ I. exact I.
    + intros n m Vn I. apply straight_V in Vn; [|reflexivity]. apply straight_V; [reflexivity|]. cbn [IntraMonoModel.succs straight] in I. destruct (Nat.ltb_spec (S n) k); [destruct I as [<-|[]]; lia|destruct I].
    + intros n m Vn I. apply straight_V in Vn; [|reflexivity]. apply straight_V; [reflexivity|]. cbn [IntraMonoModel.preds straight] in I. destruct (n <? k); [|destruct I]. destruct n; [destruct I|]. destruct I as [<-|[]]. lia.
    + intros n m Vn I. cbn [IntraMonoModel.succs IntraMonoModel.preds straight] in *. destruct (Nat.ltb_spec (S n) k); [|destruct I]. destruct I as [<-|[]].
      destruct (Nat.ltb_spec (S n) k); [left; reflexivity|lia].
    + intros s d p Vs I _ J. cbn [IntraMonoModel.succs IntraMonoModel.preds straight] in *. destruct (S s <? k); [|destruct I]. destruct I as [<-|[]]. destruct (S s <? k); [|destruct J].
      destruct J as [<-|[]]. reflexivity.
  - split; [cbn; repeat constructor; intros []|]. intros n x [[= <- <-]|[]]. split; [apply straight_V; [reflexivity|lia]|]. cbn. destruct k; reflexivity.
Qed.
Lemma branch_graph l : IntraMonoSpec.graph branch (problem (codeOf l) [0]) /\ IntraMonoSpec.entrySeeds branch (problem (codeOf l) [0]).
Proof.
  assert (HV : forall n, IntraMonoSpec.inV branch (problem (codeOf l) [0]) n <-> n < 8).
  { intros n. unfold IntraMonoSpec.inV. split; [intros (f & _ & I); apply in_seq in I; lia|]. intros L. exists tt. split; [cbn; auto|]. apply in_seq. lia. }
  split; [constructor|].
  - intros f n _ I. exact I.
  - intros n m Vn I. apply HV in Vn. apply HV. do 8 (destruct n as [|n]; [cbn in I; lia|]). lia.
  - intros n m Vn I. apply HV in Vn. apply HV. do 8 (destruct n as [|n]; [cbn in I; lia|]). lia.
  - intros n m Vn I. apply HV in Vn. do 8 (destruct n as [|n]; [cbn in I; repeat destruct I as [<-|I]; cbn; auto; contradiction|]). lia.
  - intros s d p Vs I B J. apply HV in Vs. do 8 (destruct s as [|s]; [cbn in I; intuition (subst d; cbn in B, J; try discriminate B; intuition congruence)|]). lia.
  - split; [cbn; repeat constructor; intros []|]. intros n x [[= <- <-]|[]]. split; [apply HV; lia|reflexivity].
Qed.

(** a program to which the theorem applies: x = 5; if (..) y = 1 else y = 1; z = x + y *)
Definition good := codeOf [IAlloca true; IAlloca true; IStore (VConst 5) true (VInst 0); IOther;
  IStore (VConst 1) true (VInst 1); IStore (VConst 1) true (VInst 1); ILoad (VInst 0); IBin Add 32 (VInst 6) (VConst 2)].
Example good_ex : simple good /\ exists A R m, IntraMonoModel.loop branch (problem good [0]) 60 (IntraMonoModel.initialize branch (problem good [0])) = Some A /\
  (forall n m, IntraMonoModel.get (problem good [0]) n A = Some m -> knownStore good n m) /\
  IntraMonoModel.solve branch (problem good [0]) 60 = Some R /\ IntraMonoModel.getResultsAt (problem good [0]) 7 R = Some m /\
  afind (VInst 7) m = Some (LVal 7%Z) /\ afind (VInst 1) m = Some (LVal 1%Z).
Proof.
  split.
  - intros n. unfold good, codeOf. do 8 (destruct n as [|n]; [cbn; split; [discriminate|]; intros v int p [= <- <- <-] || discriminate; eexists; eexists; split; reflexivity|]).
    cbn. destruct n; split; discriminate.
  - eexists. eexists. eexists. split; [vm_compute; reflexivity|]. split; [|split; [vm_compute; reflexivity|split; [vm_compute; reflexivity|split; reflexivity]]].
    intros n m _ v int p c C _. left. unfold good, codeOf in C. do 8 (destruct n as [|n]; [cbn in C; try discriminate; injection C as <- <- <-; eauto|]).
    cbn in C. destruct n; discriminate.
Qed.

(** ** What fails *)
Ltac aStep :=
  first [eapply step_alloca; reflexivity
        |eapply step_store; [reflexivity|reflexivity|reflexivity|first [discriminate|intros _; eexists; reflexivity]]
        |eapply step_load; reflexivity
        |eapply step_bin; [reflexivity|reflexivity|reflexivity|solve [eauto]]
        |eapply (step_other _ _ _ _ _ None); reflexivity].
Ltac next H k :=
  match type of H with
  | run ?c ?a ?ar ?su ?st ?tr ?n ?s =>
      let E := fresh in
      eassert (E : step c a ar n s _) by aStep;
      let H' := fresh in
      pose proof (run_step c a ar su st tr n s k _ H E ltac:(cbn; auto)) as H'; clear H E; rename H' into H
  end.
Notation begin code args arith succs := (run_start code args arith succs [0] 0 (or_introl eq_refl)).

(** x is 1 or 2; y = 5; y = x: the analysis says that y is 5. *)
Definition joined := codeOf [IAlloca true; IAlloca true; IStore (VConst 5) true (VInst 1); IOther;
  IStore (VConst 1) true (VInst 0); IStore (VConst 2) true (VInst 0); ILoad (VInst 0); IStore (VInst 6) true (VInst 1)].
Theorem C63_join_refuted : exists code args tr s s' R m, simple code /\
  IntraMonoSpec.graph branch (problem code [0]) /\ IntraMonoSpec.entrySeeds branch (problem code [0]) /\
  run code args unwrapped (IntraMonoModel.succs branch) [0] tr 7 s /\ step code args unwrapped 7 s s' /\
  IntraMonoModel.solve branch (problem code [0]) 60 = Some R /\ IntraMonoModel.getResultsAt (problem code [0]) 7 R = Some m /\
  afind (VInst 1) m = Some (LVal 5%Z) /\ right code args s' (VInst 1) 1 /\ ~ right code args s' (VInst 1) 5.
Proof.
  pose proof (begin joined (fun _ => RInt 0) unwrapped (IntraMonoModel.succs branch)) as R.
  next R 1. next R 2. next R 3. next R 4. next R 6. next R 7.
  exists joined, (fun _ => RInt 0). eexists. eexists. eexists. eexists. eexists. split; [|split; [apply branch_graph|split; [apply branch_graph|split; [exact R|split; [aStep|split; [|split]]]]]].
  - intros n. unfold joined, codeOf. do 8 (destruct n as [|n]; [cbn; split; [discriminate|]; intros v int p [= <- <- <-] || discriminate; eexists; eexists; split; reflexivity|]).
    cbn. destruct n; split; discriminate.
  - vm_compute. reflexivity.
  - vm_compute. reflexivity.
  - split; [reflexivity|]. split; [exists 1; split; reflexivity|]. intros (a & E & X). cbn in E. injection E as <-. cbn in X. discriminate.
Qed.
Print Assumptions C63_join_refuted.

(** x = 5; x = argument: the analysis says that x is 5. *)
Definition setTo (i : instr) := codeOf [IAlloca true; IStore (VConst 5) true (VInst 0); i; ILoad (VInst 0)].
Theorem C63_argument_refuted : exists code args tr s s' R m, simple code /\
  IntraMonoSpec.graph (straight 4) (problem code [0]) /\ IntraMonoSpec.entrySeeds (straight 4) (problem code [0]) /\
  run code args unwrapped (IntraMonoModel.succs (straight 4)) [0] tr 3 s /\ step code args unwrapped 3 s s' /\
  IntraMonoModel.solve (straight 4) (problem code [0]) 60 = Some R /\ IntraMonoModel.getResultsAt (problem code [0]) 3 R = Some m /\
  afind (VInst 3) m = Some (LVal 5%Z) /\ right code args s' (VInst 3) 7 /\ ~ right code args s' (VInst 3) 5.
Proof.
  pose proof (begin (setTo (IStore (VOther 0) true (VInst 0))) (fun _ => RInt 7) unwrapped (IntraMonoModel.succs (straight 4))) as R.
  next R 1. next R 2. next R 3.
  exists (setTo (IStore (VOther 0) true (VInst 0))), (fun _ => RInt 7). eexists. eexists. eexists. eexists. eexists. split; [|split; [apply straight_graph; auto|split; [apply straight_graph; auto|split; [exact R|split; [aStep|split; [vm_compute; reflexivity|split; [vm_compute; reflexivity|]]]]]]].
  - intros n. unfold setTo, codeOf. do 4 (destruct n as [|n]; [cbn; split; [discriminate|]; intros v int p [= <- <- <-] || discriminate; eexists; eexists; split; reflexivity|]).
    cbn. destruct n; split; discriminate.
  - split; [reflexivity|]. split; [reflexivity|]. cbn. discriminate.
Qed.
Print Assumptions C63_argument_refuted.

(** x = 5; f(&x): the analysis says that x is 5. *)
Theorem C63_call_refuted : exists code args tr s s' R m,
  run code args unwrapped (IntraMonoModel.succs (straight 4)) [0] tr 3 s /\ step code args unwrapped 3 s s' /\
  IntraMonoModel.solve (straight 4) (problem code [0]) 60 = Some R /\ IntraMonoModel.getResultsAt (problem code [0]) 3 R = Some m /\
  afind (VInst 3) m = Some (LVal 5%Z) /\ right code args s' (VInst 3) 7 /\ ~ right code args s' (VInst 3) 5.
Proof.
  pose proof (begin (setTo ICall) (fun _ => RInt 0) unwrapped (IntraMonoModel.succs (straight 4))) as R.
  next R 1. next R 2.
  apply run_step with (m := 3) (s' := mkS (upd (upd (fun _ => None) 0 (Some (RPtr 0))) 2 None) (fun _ => Some (RInt 7)) 1) in R;
    [|apply step_call; reflexivity|cbn; auto].
  exists (setTo ICall), (fun _ => RInt 0). eexists. eexists. eexists. eexists. eexists. split; [exact R|split; [aStep|split; [vm_compute; reflexivity|split; [vm_compute; reflexivity|]]]].
  split; [reflexivity|]. split; [reflexivity|]. cbn. discriminate.
Qed.
Print Assumptions C63_call_refuted.

(** x = 5; p = &x; *p = 7: the analysis says that x is 5. *)
Theorem C63_alias_refuted : exists code args tr s s' R m, (forall n, code n <> ICall) /\
  run code args unwrapped (IntraMonoModel.succs (straight 7)) [0] tr 6 s /\ step code args unwrapped 6 s s' /\
  IntraMonoModel.solve (straight 7) (problem code [0]) 60 = Some R /\ IntraMonoModel.getResultsAt (problem code [0]) 6 R = Some m /\
  afind (VInst 6) m = Some (LVal 5%Z) /\ right code args s' (VInst 6) 7 /\ ~ right code args s' (VInst 6) 5.
Proof.
  pose (code := codeOf [IAlloca true; IAlloca false; IStore (VConst 5) true (VInst 0); IStore (VInst 0) false (VInst 1);
    ILoad (VInst 1); IStore (VConst 7) true (VInst 4); ILoad (VInst 0)]).
  pose proof (begin code (fun _ => RInt 0) unwrapped (IntraMonoModel.succs (straight 7))) as R.
  next R 1. next R 2. next R 3. next R 4. next R 5. next R 6.
  exists code, (fun _ => RInt 0). eexists. eexists. eexists. eexists. eexists. split; [|split; [exact R|split; [aStep|split; [vm_compute; reflexivity|split; [vm_compute; reflexivity|]]]]].
  - intros n. unfold code, codeOf. do 7 (destruct n as [|n]; [discriminate|]). cbn. destruct n; discriminate.
  - split; [reflexivity|]. split; [reflexivity|]. cbn. discriminate.
Qed.
Print Assumptions C63_alias_refuted.

(** 32 bits: 2147483647 + 1 is said to be 2147483648, and -2 divided by 2 as
    unsigned numbers to be -1; every execution has other values. *)
Theorem C63_wrap_refuted : exists code R m, simple code /\
  IntraMonoModel.solve (straight 2) (problem code [0]) 60 = Some R /\ IntraMonoModel.getResultsAt (problem code [0]) 1 R = Some m /\
  afind (VInst 0) m = Some (LVal 2147483648%Z) /\ afind (VInst 1) m = Some (LVal (-1)%Z) /\
  (exists args tr s s', run code args llvmOp (IntraMonoModel.succs (straight 2)) [0] tr 1 s /\ step code args llvmOp 1 s s') /\
  forall args tr s s', run code args llvmOp (IntraMonoModel.succs (straight 2)) [0] tr 1 s -> step code args llvmOp 1 s s' ->
    right code args s' (VInst 0) (-2147483648) /\ right code args s' (VInst 1) 2147483647.
Proof.
  pose (code := codeOf [IBin Add 32 (VConst 2147483647) (VConst 1); IBin UDiv 32 (VConst (-2)) (VConst 2)]).
  exists code. eexists. eexists. split; [|split; [vm_compute; reflexivity|split; [vm_compute; reflexivity|split; [reflexivity|split; [reflexivity|split]]]]].
  - intros n. unfold code, codeOf. do 2 (destruct n as [|n]; [split; discriminate|]). cbn. destruct n; split; discriminate.
  - exists (fun _ => RInt 0). eexists. eexists. eexists. split.
    + eapply (run_step _ _ _ _ _ [] 0); [apply run_start; cbn; auto|eapply step_bin; [reflexivity|reflexivity|reflexivity|reflexivity]|cbn; auto].
    + eapply step_bin; [reflexivity|reflexivity|reflexivity|split; [discriminate|reflexivity]].
  - intros args tr s s' R St.
    assert (R0 : env s 0 = Some (RInt (-2147483648))).
    { inversion R as [x I X|tr0 n s0 m s1 R1 St1 Su X]; subst; [destruct I as [X|[]]; discriminate|].
      assert (n = 0) as ->. { cbn in Su. destruct n; [reflexivity|]. destruct Su. }
      inversion St1 as [? X|? ? ? ? ? X|? ? ? X|op w l r a b z X El Er Ar|? ? X|? X]; subst; unfold code in X; cbn in X; try discriminate. injection X as <- <- <- <-.
      cbn in El, Er. injection El as <-. injection Er as <-. cbn in Ar. subst z. reflexivity. }
    inversion St as [? X|? ? ? ? ? X|? ? ? X|op w l r a b z X El Er Ar|? ? X|? X]; subst; unfold code in X; cbn in X; try discriminate. injection X as <- <- <- <-.
    cbn in El, Er. injection El as <-. injection Er as <-. destruct Ar as [_ ->]. split; [exact R0|reflexivity].
Qed.
Print Assumptions C63_wrap_refuted.

(** 64 bits: an addition that wraps in the program overflows in the analysis. *)
Theorem C63_overflow_refuted : exists code R, simple code /\
  (exists args s s', run code args llvmOp (IntraMonoModel.succs (straight 1)) [0] [] 0 s /\ step code args llvmOp 0 s s') /\
  IntraMonoModel.solve (straight 1) (problem code [0]) 60 = Some R /\ IntraMonoModel.getResultsAt (problem code [0]) 0 R = None.
Proof.
  exists (codeOf [IBin Mul 64 (VConst (2 ^ 62)) (VConst 4)]). eexists. split; [|split; [|split; [vm_compute; reflexivity|vm_compute; reflexivity]]].
  - intros n. unfold codeOf. do 1 (destruct n as [|n]; [split; discriminate|]). cbn. destruct n; split; discriminate.
  - exists (fun _ => RInt 0). eexists. eexists. split; [apply run_start; cbn; auto|]. eapply step_bin; reflexivity.
Qed.
Print Assumptions C63_overflow_refuted.

(** ** Precision *)
(** Knowing less before a store can mean to know more after it. *)
Theorem C63_monotone_refuted : exists n i m1 m2, (forall k x, afind k m2 = Some x -> afind k m1 = Some x) /\
  exists o1 o2 k, flow n i m1 = Some o1 /\ flow n i m2 = Some o2 /\ afind k o1 = Some (LVal 1%Z) /\ afind k o2 = Some (LVal 5%Z).
Proof.
  exists 7, (IStore (VInst 6) true (VInst 1)), [(VInst 1, LVal 5%Z); (VInst 6, LVal 1%Z)], [(VInst 1, LVal 5%Z)]. split.
  - intros k x. cbn. destruct (eq_dec k (VInst 1)); [auto|discriminate].
  - eexists. eexists. exists (VInst 1). repeat split.
Qed.
Print Assumptions C63_monotone_refuted.

(** A variable that no loop changes is not known in the loop. *)
Definition loopCfg : IntraMonoModel.cfg nat unit :=
  IntraMonoModel.mkCfg (fun _ => seq 0 5) (fun _ => seq 0 5)
    (fun n => match n with 0 => [1] | 1 => [2] | 2 => [3; 4] | 3 => [2] | _ => [] end)
    (fun n => match n with 1 => [0] | 2 => [1; 3] | 3 => [2] | 4 => [2] | _ => [] end)
    (fun s d => d =? 2).
Theorem C63_loop_refuted : exists code R m, simple code /\
  IntraMonoModel.solve loopCfg (problem code [0]) 60 = Some R /\ IntraMonoModel.getResultsAt (problem code [0]) 4 R = Some m /\
  afind (VInst 0) m = None /\
  (exists args tr s, run code args unwrapped (IntraMonoModel.succs loopCfg) [0] tr 4 s) /\
  forall args tr s, run code args unwrapped (IntraMonoModel.succs loopCfg) [0] tr 4 s -> right code args s (VInst 0) 5.
Proof.
  pose (code := codeOf [IAlloca true; IStore (VConst 5) true (VInst 0); IOther; IOther; ILoad (VInst 0)]).
  assert (Si : simple code).
  { intros n. unfold code, codeOf. do 5 (destruct n as [|n]; [cbn; split; [discriminate|]; intros v int p [= <- <- <-] || discriminate; eexists; eexists; split; reflexivity|]).
    cbn. destruct n; split; discriminate. }
  exists code. eexists. eexists. split; [exact Si|split; [vm_compute; reflexivity|split; [vm_compute; reflexivity|split; [reflexivity|split]]]].
  - pose proof (begin code (fun _ => RInt 0) unwrapped (IntraMonoModel.succs loopCfg)) as R.
    next R 1. next R 2. next R 3. next R 2. next R 4. eauto.
  - intros args tr s R.
    refine (table_sound code args unwrapped (fun op w a b z X => proj2 X) Si (IntraMonoModel.succs loopCfg) [0]
      (fun n => match n with 0 => Some [] | 1 => Some [(VInst 0, LTop)] | _ => Some [(VInst 0, LVal 5%Z)] end) _ _ _ tr 4 s R _ eq_refl (VInst 0) 5%Z eq_refl).
    + intros n [<-|[]]. reflexivity.
    + intros n m I _. do 4 (destruct n as [|n]; [cbn in I; intuition (subst m; eexists; split; [reflexivity|]; intros k v X; exact X)|]).
      destruct n; destruct I.
    + intros n m _ v int p c C _. left. unfold code, codeOf in C. do 5 (destruct n as [|n]; [cbn in C; try discriminate; injection C as <- <- <-; eauto|]).
      cbn in C. destruct n; discriminate.
Qed.
Print Assumptions C63_loop_refuted.
