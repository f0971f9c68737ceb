(** Proofs about the Table model. *)
From Coq Require Import List Bool Lia.
From Verif Require Import Assoc TableModel.
Import ListNotations.

Section Table.
  Context {R C V : Type} `{EqDec R} `{EqDec C}.
  Notation tab := (table R C V).
  Implicit Types (t : tab) (r : R) (c : C).

  Definition t_wf (t : tab) : Prop :=
    NoDup (akeys t) /\ forall r row, In (r, row) t -> NoDup (akeys row).

  Lemma t_wf_empty : t_wf t_empty.
  Proof. split; [constructor|simpl; tauto]. Qed.

  Lemma t_row_nodup t r : t_wf t -> NoDup (akeys (t_row t r)).
  Proof.
    intros [_ Hr]. unfold t_row, afindd.
    destruct (afind r t) eqn:E; [|constructor].
    apply afind_In in E. eauto.
  Qed.

  Lemma In_aset {K W} `{EqDec K} (k : K) (v : W) l k' v' :
    In (k', v') (aset k v l) -> (k' = k /\ v' = v) \/ In (k', v') l.
  Proof.
    induction l as [|[k2 v2] l IH]; simpl.
    - intros [E|[]]; inversion E; auto.
    - destruct (eq_dec k k2); simpl; intros [E|Hin]; try inversion E; subst; auto.
      apply IH in Hin. intuition.
  Qed.

  Lemma In_adel {K W} `{EqDec K} (k : K) l (x : K * W) : In x (adel k l) -> In x l.
  Proof.
    induction l as [|[k2 v2] l IH]; simpl; auto.
    destruct (eq_dec k k2); simpl; intuition.
  Qed.

  Lemma t_wf_set t r row : t_wf t -> NoDup (akeys row) -> t_wf (aset r row t).
  Proof.
    intros [Hn Hr] Hrow. split; [apply NoDup_aset; auto|].
    intros r' row' Hin. apply In_aset in Hin. destruct Hin as [[-> ->]|Hin]; eauto.
  Qed.

  Lemma t_wf_del t r : t_wf t -> t_wf (adel r t).
  Proof.
    intros [Hn Hr]. split; [apply NoDup_adel; auto|].
    intros r' row' Hin. apply In_adel in Hin. eauto.
  Qed.

  Lemma t_wf_insert t r c v : t_wf t -> t_wf (t_insert t r c v).
  Proof.
    intros Hw. apply t_wf_set; auto. apply NoDup_aset. apply t_row_nodup; auto.
  Qed.

  Lemma t_wf_remove d t r c : t_wf t -> t_wf (fst (t_remove d t r c)).
  Proof.
    intros Hw. unfold t_remove. destruct (afind r t) as [row|] eqn:E; auto.
    destruct (afind c row) eqn:E2; auto.
    destruct (adel c row) eqn:E3; simpl; auto using t_wf_del.
    apply t_wf_set; auto. rewrite <- E3. apply NoDup_adel.
    apply afind_In in E. destruct Hw as [_ Hw]. eauto.
  Qed.

  Lemma t_lookup_row t r c : t_lookup t r c = afind c (t_row t r).
  Proof. unfold t_lookup, t_row, afindd. destruct (afind r t); auto. Qed.

  Lemma t_lookup_insert t r c v r' c' :
    t_lookup (t_insert t r c v) r' c' =
    if eq_dec (r', c') (r, c) then Some v else t_lookup t r' c'.
  Proof.
    unfold t_insert, t_lookup. rewrite afind_aset.
    destruct (eq_dec r' r) as [->|Hr].
    - rewrite afind_aset. destruct (eq_dec c' c) as [->|Hc];
        destruct (eq_dec (r, _) (r, c)) as [E|E]; try congruence.
      unfold t_row, afindd. destruct (afind r t); auto.
    - destruct (eq_dec (r', c') (r, c)); [congruence|auto].
  Qed.

  Lemma t_lookup_remove_row t r r' c' : t_wf t ->
    t_lookup (t_remove_row t r) r' c' =
    if eq_dec r' r then None else t_lookup t r' c'.
  Proof.
    intros [Hn _]. unfold t_lookup, t_remove_row. rewrite afind_adel by auto.
    destruct (eq_dec r' r); auto.
  Qed.

  Lemma t_lookup_remove d t r c r' c' : t_wf t ->
    t_lookup (fst (t_remove d t r c)) r' c' =
    if eq_dec (r', c') (r, c) then None else t_lookup t r' c'.
  Proof.
    intros Hw. unfold t_remove. destruct (afind r t) as [row|] eqn:E.
    2:{ simpl. destruct (eq_dec (r', c') (r, c)) as [E2|]; auto.
        injection E2; intros -> ->. unfold t_lookup. rewrite E. auto. }
    assert (Hnr : NoDup (akeys row)).
    { apply afind_In in E. destruct Hw; eauto. }
    destruct (afind c row) as [v|] eqn:E2.
    2:{ simpl. destruct (eq_dec (r', c') (r, c)) as [E3|]; auto.
        injection E3; intros -> ->. unfold t_lookup. rewrite E. auto. }
    assert (Hdel : forall c2, afind c2 (adel c row) = if eq_dec c2 c then None else afind c2 row).
    { intros; apply afind_adel; auto. }
    destruct (adel c row) as [|p row'] eqn:E3; simpl fst.
    - destruct Hw as [Hn _]. unfold t_lookup at 1. rewrite afind_adel by auto.
      destruct (eq_dec r' r) as [->|Hr].
      + destruct (eq_dec (r, c') (r, c)) as [|Hc]; auto.
        unfold t_lookup. rewrite E. specialize (Hdel c'). simpl in Hdel.
        destruct (eq_dec c' c); [congruence|auto].
      + destruct (eq_dec (r', c') (r, c)); [congruence|auto].
    - unfold t_lookup at 1. rewrite afind_aset.
      destruct (eq_dec r' r) as [->|Hr].
      + rewrite Hdel. unfold t_lookup. rewrite E.
        destruct (eq_dec c' c) as [->|Hc];
          destruct (eq_dec (r, _) (r, c)); congruence.
      + destruct (eq_dec (r', c') (r, c)); [congruence|auto].
  Qed.

  Lemma t_cells_In t r c v : t_wf t ->
    (In (r, c, v) (t_cells t) <-> t_lookup t r c = Some v).
  Proof.
    intros [Hn Hr]. unfold t_cells, t_lookup. rewrite in_flat_map. split.
    - intros [[r' row] [Hin Hc]]. apply in_map_iff in Hc.
      destruct Hc as [[c' v'] [E Hc]]. injection E; intros; subst.
      rewrite (In_afind _ _ _ Hn Hin). apply In_afind; eauto.
    - destruct (afind r t) as [row|] eqn:E; [|congruence]. intros E2.
      exists (r, row). split; [apply afind_In; auto|].
      apply in_map_iff. exists (c, v). split; auto. apply afind_In; auto.
  Qed.

  Lemma t_column_In t c r v : t_wf t ->
    (In (r, v) (t_column t c) <-> t_lookup t r c = Some v).
  Proof.
    intros [Hn Hr]. unfold t_column, t_lookup. rewrite in_flat_map. split.
    - intros [[r' row] [Hin Hc]]. destruct (afind c row) eqn:E; [|destruct Hc].
      destruct Hc as [E2|[]]. injection E2; intros; subst.
      rewrite (In_afind _ _ _ Hn Hin). auto.
    - destruct (afind r t) as [row|] eqn:E; [|congruence]. intros E2.
      exists (r, row). split; [apply afind_In; auto|]. rewrite E2. simpl; auto.
  Qed.

  Lemma t_contains_column_spec t c : t_wf t ->
    (t_contains_column t c = true <-> exists r v, t_lookup t r c = Some v).
  Proof.
    intros [Hn Hr]. unfold t_contains_column. rewrite existsb_exists. split.
    - intros [[r row] [Hin E]]. destruct (afind c row) as [v|] eqn:E2; [|congruence].
      exists r, v. unfold t_lookup. rewrite (In_afind _ _ _ Hn Hin). auto.
    - intros [r [v E]]. unfold t_lookup in E. destruct (afind r t) as [row|] eqn:E2; [|congruence].
      exists (r, row). split; [apply afind_In; auto|]. rewrite E; auto.
  Qed.

  Lemma t_row_In t r c v : t_wf t ->
    (In (c, v) (t_row t r) <-> t_lookup t r c = Some v).
  Proof.
    intros Hw. rewrite t_lookup_row. apply In_afind_iff. apply t_row_nodup; auto.
  Qed.

  Lemma t_cells_NoDup t : t_wf t -> NoDup (map fst (t_cells t)).
  Proof.
    intros [Hn Hr]. unfold t_cells. induction t as [|[r row] t IH]; simpl; [constructor|].
    rewrite map_app. inversion Hn; subst.
    assert (Hrow : NoDup (akeys row)) by (eapply Hr; left; eauto).
    rewrite map_map.
    assert (IH' : NoDup (map fst (flat_map (fun '(r, row) => map (fun '(c, v) => (r, c, v)) row) t))).
    { apply IH; auto. intros; eapply Hr; right; eauto. }
    clear IH. revert IH'.
    set (tl := map fst (flat_map _ t)). intros IH'.
    assert (Hdis : forall r' c', In (r', c') tl -> In r' (akeys t)).
    { unfold tl. intros r' c' Hin. apply in_map_iff in Hin.
      destruct Hin as [[[r2 c2] v2] [E Hin]]. simpl in E. injection E; intros; subst.
      apply in_flat_map in Hin. destruct Hin as [[r3 row3] [Hin Hc]].
      apply in_map_iff in Hc. destruct Hc as [[c4 v4] [E4 _]]. injection E4; intros; subst.
      apply (in_map fst) in Hin; auto. }
    clearbody tl. clear - Hrow IH' Hdis H3.
    induction row as [|[c v] row IH]; simpl; auto.
    inversion Hrow; subst. constructor; auto.
    rewrite in_app_iff. intros [Hin|Hin].
    - apply in_map_iff in Hin. destruct Hin as [[c2 v2] [E Hin]]. simpl in E.
      injection E; intros; subst. apply H1. apply (in_map fst) in Hin; auto.
    - apply Hdis in Hin. auto.
  Qed.
End Table.

(** Independent specification: a partial function on pairs, transformed by the
    operations of the public interface. *)
Section Spec.
  Context {R C V : Type} `{EqDec R} `{EqDec C}.
  Inductive op :=
  | Insert (r : R) (c : C) (v : V)
  | Remove (r : R) (c : C)
  | RemoveRow (r : R)
  | Touch (r : R) (c : C)          (* non-const get: creates V() *)
  | Clear.
  Definition spec := R -> C -> option V.
  Definition spec_step (d : V) (m : spec) (o : op) : spec :=
    fun r c =>
    match o with
    | Insert r' c' v => if eq_dec (r, c) (r', c') then Some v else m r c
    | Remove r' c' => if eq_dec (r, c) (r', c') then None else m r c
    | RemoveRow r' => if eq_dec r r' then None else m r c
    | Touch r' c' => if eq_dec (r, c) (r', c')
                     then match m r c with Some v => Some v | None => Some d end
                     else m r c
    | Clear => None
    end.
  Definition spec_run (d : V) (os : list op) : spec :=
    fold_left (spec_step d) os (fun _ _ => None).

  Definition impl_step (d : V) (t : table R C V) (o : op) : table R C V :=
    match o with
    | Insert r c v => t_insert t r c v
    | Remove r c => fst (t_remove d t r c)
    | RemoveRow r => t_remove_row t r
    | Touch r c => fst (t_get_mut d t r c)
    | Clear => t_clear t
    end.
  Definition impl_run (d : V) (os : list op) : table R C V :=
    fold_left (impl_step d) os t_empty.

  Lemma impl_refines_gen d os : forall t m,
    t_wf t -> (forall r c, t_lookup t r c = m r c) ->
    t_wf (fold_left (impl_step d) os t) /\
    (forall r c, t_lookup (fold_left (impl_step d) os t) r c =
                 fold_left (spec_step d) os m r c).
  Proof.
    induction os as [|o os IH]; simpl; auto.
    intros t m Hw Hm. apply IH.
    - destruct o; simpl.
      + apply t_wf_insert; auto.
      + apply t_wf_remove; auto.
      + apply t_wf_del; auto.
      + unfold t_get_mut. destruct (t_lookup t r c); simpl; auto. apply t_wf_insert; auto.
      + apply t_wf_empty.
    - intros r c. destruct o; simpl.
      + rewrite t_lookup_insert. destruct (eq_dec _ _); auto.
      + rewrite t_lookup_remove by auto. destruct (eq_dec _ _); auto.
      + rewrite t_lookup_remove_row by auto. destruct (eq_dec _ _); auto.
      + unfold t_get_mut. destruct (t_lookup t r0 c0) eqn:E; simpl.
        * destruct (eq_dec (r, c) (r0, c0)) as [E2|]; auto.
          injection E2; intros; subst. rewrite <- Hm, E; auto.
        * rewrite t_lookup_insert. destruct (eq_dec (r, c) (r0, c0)) as [E2|]; auto.
          injection E2; intros; subst. rewrite <- Hm, E; auto.
      + reflexivity.
  Qed.

  Lemma impl_refines d os :
    t_wf (impl_run d os) /\
    (forall r c, t_lookup (impl_run d os) r c = spec_run d os r c).
  Proof. apply impl_refines_gen; [apply t_wf_empty|reflexivity]. Qed.

  Lemma table_views d os (t := impl_run d os) (m := spec_run d os) :
    (forall r c, t_contains t r c = true <-> m r c <> None) /\
    (forall r c, t_get d t r c = match m r c with Some v => v | None => d end) /\
    (forall r c v, In (r, c, v) (t_cells t) <-> m r c = Some v) /\
    NoDup (map fst (t_cells t)) /\
    (forall r c v, In (c, v) (t_row t r) <-> m r c = Some v) /\
    (forall r c v, In (r, v) (t_column t c) <-> m r c = Some v) /\
    (forall c, t_contains_column t c = true <-> exists r v, m r c = Some v) /\
    (forall r, (exists c v, m r c = Some v) -> t_contains_row t r = true).
  Proof.
    subst t m. destruct (impl_refines d os) as [Hw Hm].
    set (t := impl_run d os) in *. set (m := spec_run d os) in *.
    assert (E : forall r c, m r c = t_lookup t r c) by (intros; symmetry; auto).
    repeat split; intros.
    - rewrite E. unfold t_contains in *. destruct (t_lookup t r c); congruence.
    - unfold t_contains. rewrite E in H1. destruct (t_lookup t r c); congruence.
    - unfold t_get. rewrite E; auto.
    - rewrite E. apply t_cells_In; auto.
    - rewrite E in H1. apply t_cells_In; auto.
    - apply t_cells_NoDup; auto.
    - rewrite E. apply t_row_In; auto.
    - rewrite E in H1. apply t_row_In; auto.
    - rewrite E. apply t_column_In; auto.
    - rewrite E in H1. apply t_column_In; auto.
    - apply t_contains_column_spec in H1; auto. destruct H1 as [r [v H1]].
      exists r, v. rewrite E; auto.
    - apply t_contains_column_spec; auto. destruct H1 as [r [v H1]].
      exists r, v. rewrite <- E; auto.
    - destruct H1 as [c [v H1]]. rewrite E in H1. unfold t_lookup in H1.
      unfold t_contains_row. destruct (afind r t); congruence.
  Qed.

  Lemma remove_returns_old d os r c :
    snd (t_remove d (impl_run d os) r c) =
    match spec_run d os r c with Some v => v | None => d end.
  Proof.
    destruct (impl_refines d os) as [_ Hm]. rewrite <- Hm.
    unfold t_remove, t_lookup. destruct (afind r (impl_run d os)) as [row|]; auto.
    destruct (afind c row); auto. destruct (adel c row); auto.
  Qed.
End Spec.

Lemma phantom_row : exists (t : table nat nat nat),
    t_cells t = [] /\ t_contains_row (fst (t_row_mut t 7)) 7 = true /\
    t_cells (fst (t_row_mut t 7)) = [] /\ t_is_empty (fst (t_row_mut t 7)) = false.
Proof. exists t_empty. vm_compute. repeat split. Qed.

