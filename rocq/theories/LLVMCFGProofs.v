(** Proofs about LLVMCFGModel. *)
From Coq Require Import List Bool Arith Lia.
From Verif Require Import Assoc LLVMCFGModel LLVMCFGSpec.
Import ListNotations.

Lemma find_map {A B} (p : B -> bool) (g : A -> B) l : find p (map g l) = option_map g (find (fun x => p (g x)) l).
Proof. induction l as [|x l IH]; cbn; auto. destruct (p (g x)); auto. Qed.
Lemma find_seq p : forall n a j, find p (seq a n) = Some j <-> a <= j < a + n /\ p j = true /\ forall k, a <= k < j -> p k = false.
Proof.
  induction n as [|n IH]; intros a j; cbn.
  - split; [discriminate|]. intros [A _]. lia.
  - destruct (p a) eqn:E.
    + split.
      * intros Hj. injection Hj as <-. split; [lia|]. split; auto. intros k Hk. lia.
      * intros (A & B & C). f_equal. destruct (Nat.eq_dec a j); auto. exfalso. specialize (C a). rewrite E in C. discriminate C. lia.
    + rewrite IH. split.
      * intros (A & B & C). split; [lia|]. split; auto. intros k Hk. destruct (Nat.eq_dec k a) as [->|]; auto. apply C. lia.
      * intros (A & B & C). destruct (Nat.eq_dec a j) as [->|]; [congruence|]. split; [lia|]. split; auto. intros k Hk. apply C. lia.
Qed.
Lemma find_seq_none p n a : find p (seq a n) = None <-> forall k, a <= k < a + n -> p k = false.
Proof.
  split.
  - intros Hf k Hk. apply (find_none _ _ Hf). apply in_seq. lia.
  - intros Hp. destruct (find p (seq a n)) as [j|] eqn:E; auto. apply find_seq in E as (A & B & _). rewrite Hp in B; [discriminate|lia].
Qed.
Lemma find_rev_seq p : forall n j, find p (rev (seq 0 n)) = Some j <-> j < n /\ p j = true /\ forall k, j < k < n -> p k = false.
Proof.
  induction n as [|n IH]; intros j.
  - cbn. split; [discriminate|]. intros [A _]. lia.
  - rewrite seq_S, rev_app_distr. cbn [rev app find Nat.add]. destruct (p n) eqn:E.
    + split.
      * intros Hj. injection Hj as <-. split; [lia|]. split; auto. intros k Hk. lia.
      * intros (A & B & C). f_equal. destruct (Nat.eq_dec n j); auto. exfalso. specialize (C n). rewrite E in C. discriminate C. lia.
    + rewrite IH. split.
      * intros (A & B & C). split; [lia|]. split; auto. intros k Hk. destruct (Nat.eq_dec k n) as [->|]; auto. apply C. lia.
      * intros (A & B & C). destruct (Nat.eq_dec n j) as [->|]; [congruence|]. split; [lia|]. split; auto. intros k Hk. apply C. lia.
Qed.
Lemma find_rev_seq_none p n : find p (rev (seq 0 n)) = None <-> forall k, k < n -> p k = false.
Proof.
  split.
  - intros Hf k Hk. apply (find_none _ _ Hf). rewrite <- in_rev. apply in_seq. lia.
  - intros Hp. destruct (find p (rev (seq 0 n))) as [j|] eqn:E; auto. apply find_rev_seq in E as (A & B & _). rewrite Hp in B; [discriminate|lia].
Qed.

Section P.
  Context (ign : bool) (f : func) (Wf : wf f).
  Notation len b := (length (insts (getBlock f b))).
  Notation sk := (skipped ign f).
  Definition flowNode (n : inst) : Prop := valid f n /\ sk n = false.

  Lemma next_some b i m : next ign f (b, i) = Some m <->
    exists j, m = (b, j) /\ i < j < len b /\ sk (b, j) = false /\ forall k, i < k < j -> sk (b, k) = true.
  Proof.
    unfold next. cbn [fst snd]. rewrite find_map. split.
    - destruct (find _ _) as [j|] eqn:E; [|discriminate]. cbn. intros Hm. injection Hm as <-.
      apply find_seq in E as (A & B & C). exists j. split; auto. split; [lia|]. split; [now apply negb_true_iff|].
      intros k Hk. apply negb_false_iff, C. lia.
    - intros (j & -> & A & B & C). replace (find _ _) with (Some j); [reflexivity|]. symmetry. apply find_seq.
      split; [lia|]. split; [now apply negb_true_iff|]. intros k Hk. apply negb_false_iff, C. lia.
  Qed.
  Lemma next_none b i : next ign f (b, i) = None <-> forall k, i < k < len b -> sk (b, k) = true.
  Proof.
    unfold next. cbn [fst snd]. rewrite find_map. split.
    - destruct (find _ _) as [j|] eqn:E; [discriminate|]. intros _ k Hk. apply find_seq_none with (k := k) in E; [|lia].
      now apply negb_false_iff.
    - intros A. replace (find _ _) with (@None nat); [reflexivity|]. symmetry. apply find_seq_none. intros k Hk. apply negb_false_iff, A. lia.
  Qed.
  Lemma prev_some b i m : prev ign f (b, i) = Some m <->
    exists j, m = (b, j) /\ j < i /\ sk (b, j) = false /\ forall k, j < k < i -> sk (b, k) = true.
  Proof.
    unfold prev. cbn [fst snd]. rewrite find_map. split.
    - destruct (find _ _) as [j|] eqn:E; [|discriminate]. cbn. intros Hm. injection Hm as <-.
      apply find_rev_seq in E as (A & B & C). exists j. split; auto. split; [lia|]. split; [now apply negb_true_iff|].
      intros k Hk. apply negb_false_iff, C. lia.
    - intros (j & -> & A & B & C). replace (find _ _) with (Some j); [reflexivity|]. symmetry. apply find_rev_seq.
      split; [lia|]. split; [now apply negb_true_iff|]. intros k Hk. apply negb_false_iff, C. lia.
  Qed.
  Lemma prev_none b i : prev ign f (b, i) = None <-> forall k, k < i -> sk (b, k) = true.
  Proof.
    unfold prev. cbn [fst snd]. rewrite find_map. split.
    - destruct (find _ _) as [j|] eqn:E; [discriminate|]. intros _ k Hk. apply find_rev_seq_none with (k := k) in E; [|lia].
      now apply negb_false_iff.
    - intros A. replace (find _ _) with (@None nat); [reflexivity|]. symmetry. apply find_rev_seq_none. intros k Hk. apply negb_false_iff, A. lia.
  Qed.

  Lemma len_pos b : b < length f -> 0 < len b.
  Proof. intros Hb. destruct (wf_term f Wf b Hb) as [A _]. destruct (insts (getBlock f b)); [congruence|cbn; lia]. Qed.
  Lemma term_kept b : b < length f -> sk (b, len b - 1) = false.
  Proof.
    intros Hb. destruct (wf_term f Wf b Hb) as [A B]. unfold skipped, kindOf. cbn [fst snd].
    assert (E : nth (len b - 1) (insts (getBlock f b)) Plain = last (insts (getBlock f b)) Plain).
    { destruct (@exists_last _ _ A) as (l & x & ->). rewrite last_last, app_length. cbn.
      replace (length l + 1 - 1) with (length l) by lia. rewrite app_nth2, Nat.sub_diag by lia. reflexivity. }
    rewrite E, B. apply andb_false_r.
  Qed.
  (** without a next instruction one is at the terminator *)
  Lemma next_none_term b i : b < length f -> i < len b -> next ign f (b, i) = None -> i = len b - 1.
  Proof.
    intros Hb Hi E. destruct (Nat.eq_dec i (len b - 1)); auto. exfalso.
    pose proof (proj1 (next_none b i) E) as Hn. specialize (Hn (len b - 1)).
    rewrite term_kept in Hn by auto. discriminate Hn. lia.
  Qed.
  Lemma next_term b : b < length f -> next ign f (b, len b - 1) = None.
  Proof. intros Hb. apply next_none. intros k Hk. lia. Qed.

  (** the first kept instruction of a block *)
  Lemma first_ok b : b < length f -> exists j, first ign f b = (b, j) /\ j < len b /\ sk (b, j) = false /\ forall k, k < j -> sk (b, k) = true.
  Proof.
    intros Hb. pose proof (len_pos b Hb) as Hp. unfold first. destruct (sk (b, 0)) eqn:E.
    - destruct (next ign f (b, 0)) as [m|] eqn:En.
      + apply next_some in En as (j & -> & A & B & C). exists j. split; auto. split; [lia|]. split; auto.
        intros k Hk. destruct k; auto. apply C. lia.
      + pose proof (next_none_term b 0 Hb Hp En) as E0. pose proof (term_kept b Hb) as T. rewrite <- E0 in T. congruence.
    - exists 0. split; auto. split; auto. split; auto. intros k Hk. lia.
  Qed.
  Lemma first_unique b j : b < length f -> j < len b -> sk (b, j) = false -> (forall k, k < j -> sk (b, k) = true) -> first ign f b = (b, j).
  Proof.
    intros Hb Hj Hs Hk. destruct (first_ok b Hb) as (j' & -> & A & B & C). f_equal.
    destruct (lt_eq_lt_dec j j') as [[L|]|L]; auto; exfalso.
    - specialize (C j L). congruence.
    - specialize (Hk j' L). congruence.
  Qed.

  Lemma predBlocks_in b p : In p (predBlocks f b) <-> p < length f /\ In b (targets f p).
  Proof.
    unfold predBlocks. rewrite in_flat_map. split.
    - intros (b' & Hb' & Hin). apply in_map_iff in Hin as (t & <- & Ht). apply filter_In in Ht as [A B].
      apply Nat.eqb_eq in B as ->. apply in_seq in Hb'. split; [lia|auto].
    - intros [Hp Hin]. exists p. split; [apply in_seq; lia|]. apply in_map_iff. exists b. split; auto.
      apply filter_In. split; auto. apply Nat.eqb_refl.
  Qed.

  Lemma succs_valid n m : flowNode n -> In m (getSuccsOf ign f n) -> flowNode m.
  Proof.
    destruct n as [b i]. intros [[Hb Hi] Hs] Hm. cbn [fst snd] in *. unfold getSuccsOf in Hm.
    destruct (next ign f (b, i)) as [x|] eqn:E.
    - apply next_some in E as (j & -> & A & B & C). destruct Hm as [<-|[]]. split; [|auto]. split; cbn; [auto|lia].
    - assert (G : forall t, In t (targets f b) -> flowNode (first ign f t)).
      { intros t Ht. destruct (wf_target f Wf b t Hb Ht) as [Htl _]. destruct (first_ok t Htl) as (j & -> & A & B & _).
        split; [split|]; cbn; auto. }
      assert (Hm' : exists t, In t (targets f b) /\ m = first ign f t).
      { unfold targets in *. cbn [fst] in Hm. destruct (term (getBlock f b)) as [|[|t ts] []|ts].
        - contradiction.
        - contradiction.
        - contradiction.
        - destruct Hm as [<-|[]]. exists t. cbn. auto.
        - apply in_map_iff in Hm as (x & <- & Hx). eauto.
        - apply in_map_iff in Hm as (x & <- & Hx). eauto. }
      destruct Hm' as (t & Ht & ->). auto.
  Qed.
  Lemma succs_targets b m : In m (getSuccsOf ign f (b, len b - 1)) -> b < length f -> exists t, In t (targets f b) /\ m = first ign f t.
  Proof.
    intros Hm Hb. unfold getSuccsOf in Hm. rewrite next_term in Hm by auto. unfold targets in *. cbn [fst] in Hm.
    destruct (term (getBlock f b)) as [|[|t ts] []|ts]; try contradiction.
    - destruct Hm as [<-|[]]. exists t. cbn. auto.
    - apply in_map_iff in Hm as (x & <- & Hx). eauto.
    - apply in_map_iff in Hm as (x & <- & Hx). eauto.
  Qed.
  Lemma targets_succs b t : noLazy f -> b < length f -> In t (targets f b) -> In (first ign f t) (getSuccsOf ign f (b, len b - 1)).
  Proof.
    intros Nl Hb Ht. unfold getSuccsOf. rewrite next_term by auto. unfold targets in *. cbn [fst].
    destruct (term (getBlock f b)) as [|[|t0 ts] []|ts] eqn:E; try contradiction; try (now apply in_map).
    exfalso. eapply Nl; eauto.
  Qed.

  (** ** Successors and predecessors *)
  Lemma succ_pred n m : flowNode n -> In m (getSuccsOf ign f n) -> In n (getPredsOf ign f m).
  Proof.
    destruct n as [b i]. intros [[Hb Hi] Hs] Hm. cbn [fst snd] in *. destruct (next ign f (b, i)) as [x|] eqn:E.
    - unfold getSuccsOf in Hm. rewrite E in Hm. destruct Hm as [<-|[]]. apply next_some in E as (j & -> & A & B & C).
      unfold getPredsOf. replace (prev ign f (b, j)) with (Some (b, i)); [cbn; auto|]. symmetry. apply prev_some.
      exists i. split; auto. split; [lia|]. split; auto.
    - pose proof (next_none_term b i Hb Hi E) as ->. destruct (succs_targets b m Hm Hb) as (t & Ht & ->).
      destruct (wf_target f Wf b t Hb Ht) as [Htl _]. destruct (first_ok t Htl) as (j & -> & A & B & C).
      unfold getPredsOf. rewrite (proj2 (prev_none t j) C). cbn [fst]. apply in_map_iff. exists b. split; auto. now apply predBlocks_in.
  Qed.
  Lemma pred_valid n m : flowNode m -> In n (getPredsOf ign f m) -> flowNode n.
  Proof.
    destruct m as [b i]. intros [[Hb Hi] Hs] Hn. cbn [fst snd] in *. unfold getPredsOf in Hn.
    destruct (prev ign f (b, i)) as [x|] eqn:E.
    - destruct Hn as [<-|[]]. apply prev_some in E as (j & -> & A & B & C). split; [split|]; cbn; auto. lia.
    - cbn [fst] in Hn. apply in_map_iff in Hn as (p & <- & Hp). apply predBlocks_in in Hp as [Hp _]. pose proof (len_pos p Hp).
      split; [split|]; cbn; [auto|lia|]. now apply term_kept.
  Qed.
  Lemma pred_succ n m : noLazy f -> flowNode m -> In n (getPredsOf ign f m) -> In m (getSuccsOf ign f n).
  Proof.
    intros Nl. destruct m as [b i]. intros [[Hb Hi] Hs] Hn. cbn [fst snd] in *. unfold getPredsOf in Hn.
    destruct (prev ign f (b, i)) as [x|] eqn:E.
    - destruct Hn as [<-|[]]. apply prev_some in E as (j & -> & A & B & C). unfold getSuccsOf.
      replace (next ign f (b, j)) with (Some (b, i)); [cbn; auto|]. symmetry. apply next_some. exists i. split; auto.
    - cbn [fst] in Hn. apply in_map_iff in Hn as (p & <- & Hp). apply predBlocks_in in Hp as [Hp Ht].
      pose proof (proj1 (prev_none b i) E) as Hk. rewrite <- (first_unique b i Hb Hi Hs Hk). now apply targets_succs.
  Qed.

  (** ** Successors are what executes next *)
  Lemma executes_valid n m : valid f n -> executes f n m -> valid f m.
  Proof.
    intros [A B] E. destruct E as [b i L|b i t L Ht]; cbn [fst snd] in *; [split; cbn; auto|].
    destruct (wf_target f Wf b t A Ht) as [Hl _]. split; cbn; auto. now apply len_pos.
  Qed.
  Lemma chain b : forall d i j, j = i + S d -> j < len b -> sk (b, j) = false -> (forall k, i < k < j -> sk (b, k) = true) ->
    executesNext f sk (b, i) (b, j).
  Proof.
    induction d as [|d IH]; intros i j Hj Hl Hs Hk.
    - replace j with (S i) in * by lia. apply en_step; auto. constructor. lia.
    - apply en_skip with (x := (b, S i)).
      + constructor. lia.
      + apply Hk. lia.
      + apply IH; auto; [lia|]. intros k Hk'. apply Hk. lia.
  Qed.
  Lemma succs_execute n m : flowNode n -> In m (getSuccsOf ign f n) -> executesNext f sk n m.
  Proof.
    destruct n as [b i]. intros [[Hb Hi] Hs] Hm. cbn [fst snd] in *. destruct (next ign f (b, i)) as [x|] eqn:E.
    - unfold getSuccsOf in Hm. rewrite E in Hm. destruct Hm as [<-|[]]. apply next_some in E as (j & -> & A & B & C).
      apply chain with (d := j - i - 1); auto; lia.
    - pose proof (next_none_term b i Hb Hi E) as ->. destruct (succs_targets b m Hm Hb) as (t & Ht & ->).
      destruct (wf_target f Wf b t Hb Ht) as [Htl _]. destruct (first_ok t Htl) as (j & -> & A & B & C).
      assert (Ex : executes f (b, len b - 1) (t, 0)) by (constructor; auto; lia).
      destruct j as [|j]; [now apply en_step|]. apply en_skip with (x := (t, 0)); auto; [apply C; lia|].
      apply chain with (d := j); auto. intros k Hk. apply C. lia.
  Qed.
  Lemma execute_succs n m : noLazy f -> executesNext f sk n m -> valid f n -> In m (getSuccsOf ign f n).
  Proof.
    intros Nl E. induction E as [n m Ex Hs|n x m Ex Hs E IH]; intros V.
    - destruct Ex as [b i L|b i t L Ht].
      + unfold getSuccsOf. replace (next ign f (b, i)) with (Some (b, S i)); [cbn; auto|]. symmetry. apply next_some.
        exists (S i). split; auto. split; [lia|]. split; auto. intros k Hk. lia.
      + destruct V as [Hb Hi]. cbn [fst snd] in *. destruct (wf_target f Wf b t Hb Ht) as [Htl _].
        rewrite <- (first_unique t 0 Htl (len_pos t Htl) Hs) by (intros; lia). replace i with (len b - 1) by lia. now apply targets_succs.
    - pose proof (executes_valid n x V Ex) as Vx. specialize (IH Vx). destruct Ex as [b i L|b i t L Ht].
      + destruct V as [Hb Hi]. cbn [fst snd] in *.
        destruct (next ign f (b, S i)) as [y|] eqn:En.
        * unfold getSuccsOf in IH. rewrite En in IH. destruct IH as [<-|[]]. apply next_some in En as (j & -> & A & B & C).
          unfold getSuccsOf. replace (next ign f (b, i)) with (Some (b, j)); [cbn; auto|]. symmetry. apply next_some.
          exists j. split; auto. split; [lia|]. split; auto. intros k Hk. destruct (Nat.eq_dec k (S i)) as [->|]; auto. apply C. lia.
        * exfalso. pose proof (next_none_term b (S i) Hb L En) as Ei. pose proof (term_kept b Hb) as T. rewrite <- Ei in T. congruence.
      + destruct V as [Hb Hi]. cbn [fst snd] in *. destruct (wf_target f Wf b t Hb Ht) as [Htl _].
        destruct (next ign f (t, 0)) as [y|] eqn:En.
        * unfold getSuccsOf in IH. rewrite En in IH. destruct IH as [<-|[]].
          replace y with (first ign f t) by (unfold first; now rewrite Hs, En).
          replace i with (len b - 1) by lia. now apply targets_succs.
        * exfalso. pose proof (next_none_term t 0 Htl (len_pos t Htl) En) as Ei. pose proof (term_kept t Htl) as T. rewrite <- Ei in T. congruence.
  Qed.

  Lemma allInstructions_in n : In n (allInstructions f) <-> valid f n.
  Proof.
    unfold allInstructions. rewrite in_flat_map. destruct n as [b i]. split.
    - intros (b' & Hb & Hin). apply in_map_iff in Hin as (j & Heq & Hj). injection Heq as -> ->. apply in_seq in Hb, Hj.
      split; cbn; lia.
    - intros [A B]. cbn in A, B. exists b. split; [apply in_seq; lia|]. apply in_map. apply in_seq. lia.
  Qed.
  Lemma flowNodes_in n : In n (flowNodes ign f) <-> flowNode n.
  Proof. unfold flowNodes. rewrite filter_In, allInstructions_in, negb_true_iff. reflexivity. Qed.

  (** ** Branch targets *)
  Lemma single_pred s d p : noDbgFront f \/ ign = false -> flowNode s -> In d (getSuccsOf ign f s) ->
    isBranchTarget f s d = false -> In p (getPredsOf ign f d) -> p = s.
  Proof.
    intros Nf. destruct s as [b i]. intros [[Hb Hi] Hs] Hd Hb' Hp. cbn [fst snd] in *.
    destruct (next ign f (b, i)) as [x|] eqn:E.
    - unfold getSuccsOf in Hd. rewrite E in Hd. destruct Hd as [<-|[]]. apply next_some in E as (j & -> & A & B & C).
      unfold getPredsOf in Hp. replace (prev ign f (b, j)) with (Some (b, i)) in Hp; [destruct Hp as [|[]]; auto|]. symmetry. apply prev_some.
      exists i. split; auto. split; [lia|]. split; auto.
    - exfalso. pose proof (next_none_term b i Hb Hi E) as ->. destruct (succs_targets b d Hd Hb) as (t & Ht & ->).
      destruct (wf_target f Wf b t Hb Ht) as [Htl _].
      assert (Hs0 : sk (t, 0) = false) by (unfold skipped; destruct Nf as [Nf| ->]; [rewrite Nf; apply andb_false_r|reflexivity]).
      unfold first in Hb'. rewrite Hs0 in Hb'. unfold isBranchTarget, isTerminator in Hb'. cbn [fst snd] in Hb'.
      pose proof (len_pos b Hb). replace (S (len b - 1)) with (len b) in Hb' by lia. rewrite Nat.eqb_refl in Hb'. cbn [andb] in Hb'.
      assert (existsb (fun b0 => eqb (b0, 0) (t, 0)) (targets f b) = true); [|congruence].
      apply existsb_exists. exists t. split; auto. apply eqb_refl.
  Qed.
  Lemma start_no_preds : f <> [] -> getPredsOf ign f (first ign f 0) = [].
  Proof.
    intros Hf. assert (H0 : 0 < length f) by (destruct f; cbn; [congruence|lia]). destruct (first_ok 0 H0) as (j & -> & A & B & C).
    unfold getPredsOf. rewrite (proj2 (prev_none 0 j) C). cbn [fst]. destruct (predBlocks f 0) as [|p ps] eqn:E; auto.
    assert (Hin : In p (predBlocks f 0)) by (rewrite E; cbn; auto). apply predBlocks_in in Hin as [Hp Ht].
    destruct (wf_target f Wf p 0 Hp Ht). congruence.
  Qed.
End P.
