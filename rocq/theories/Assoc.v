(** Association lists: the common representation of the finite maps of the
    C++ standard library / LLVM ADT used by the modelled code
    (std::map, std::unordered_map, llvm::DenseMap, SmallVector of pairs).
    [aset] overwrites in place or appends, i.e. it models both
    [Map[K] = V] and the find_if-or-emplace_back idiom. *)
From Coq Require Import List Bool Arith NArith ZArith Lia Permutation.
Import ListNotations.

Class EqDec (A : Type) := eq_dec : forall x y : A, {x = y} + {x <> y}.

#[global] Instance EqDec_nat : EqDec nat := Nat.eq_dec.
#[global] Instance EqDec_bool : EqDec bool := Bool.bool_dec.
#[global] Instance EqDec_prod {A B} `{EqDec A} `{EqDec B} : EqDec (A * B).
Proof. intros [a b] [c d]. destruct (eq_dec a c), (eq_dec b d); subst; auto;
  right; congruence. Defined.
#[global] Instance EqDec_option {A} `{EqDec A} : EqDec (option A).
Proof. intros [a|] [b|]; try (right; congruence); auto.
  destruct (eq_dec a b); subst; auto; right; congruence. Defined.
#[global] Instance EqDec_list {A} `{EqDec A} : EqDec (list A) :=
  list_eq_dec eq_dec.
#[global] Instance EqDec_unit : EqDec unit.
Proof. intros [] []; auto. Defined.
#[global] Instance EqDec_N : EqDec N := N.eq_dec.
#[global] Instance EqDec_Z : EqDec Z := Z.eq_dec.
#[global] Instance EqDec_sum {A B} `{EqDec A} `{EqDec B} : EqDec (A + B).
Proof. intros [a|a] [b|b]; try (right; congruence);
  destruct (eq_dec a b); subst; auto; right; congruence. Defined.

Definition eqb {A} `{EqDec A} (x y : A) : bool :=
  if eq_dec x y then true else false.

Lemma eqb_true {A} `{EqDec A} (x y : A) : eqb x y = true <-> x = y.
Proof. unfold eqb; destruct (eq_dec x y); split; congruence. Qed.
Lemma eqb_eq {A} `{EqDec A} (x y : A) : eqb x y = true -> x = y.
Proof. apply eqb_true. Qed.
Lemma eqb_false {A} `{EqDec A} (x y : A) : eqb x y = false <-> x <> y.
Proof. unfold eqb; destruct (eq_dec x y); split; congruence. Qed.
Lemma eqb_refl {A} `{EqDec A} (x : A) : eqb x x = true.
Proof. apply eqb_true; reflexivity. Qed.

Section Assoc.
  Context {K V : Type} `{EqDec K}.

  Fixpoint afind (k : K) (l : list (K * V)) : option V :=
    match l with
    | [] => None
    | (k', v) :: l' => if eq_dec k k' then Some v else afind k l'
    end.

  Fixpoint aset (k : K) (v : V) (l : list (K * V)) : list (K * V) :=
    match l with
    | [] => [(k, v)]
    | (k', v') :: l' =>
        if eq_dec k k' then (k', v) :: l' else (k', v') :: aset k v l'
    end.

  (** erase of the first entry with key [k] *)
  Fixpoint adel (k : K) (l : list (K * V)) : list (K * V) :=
    match l with
    | [] => []
    | (k', v') :: l' => if eq_dec k k' then l' else (k', v') :: adel k l'
    end.

  Definition akeys (l : list (K * V)) : list K := map fst l.

  Definition afindd (d : V) (k : K) (l : list (K * V)) : V :=
    match afind k l with Some v => v | None => d end.

  Lemma afind_aset_eq k v l : afind k (aset k v l) = Some v.
  Proof.
    induction l as [|[k' v'] l IH]; simpl.
    - destruct (eq_dec k k); congruence.
    - destruct (eq_dec k k'); simpl; destruct (eq_dec k k'); congruence.
  Qed.

  Lemma afind_aset_neq k k' v l : k <> k' -> afind k (aset k' v l) = afind k l.
  Proof.
    intros Hne. induction l as [|[k2 v2] l IH]; simpl.
    - destruct (eq_dec k k'); congruence.
    - destruct (eq_dec k' k2); simpl; destruct (eq_dec k k2); congruence.
  Qed.

  Lemma afind_aset k k' v l :
    afind k (aset k' v l) = if eq_dec k k' then Some v else afind k l.
  Proof.
    destruct (eq_dec k k'); subst; auto using afind_aset_eq, afind_aset_neq.
  Qed.

  Lemma afind_In k v l : afind k l = Some v -> In (k, v) l.
  Proof.
    induction l as [|[k' v'] l IH]; simpl; [congruence|].
    destruct (eq_dec k k'); intros E; [injection E; intros; subst; auto|auto].
  Qed.

  Lemma afind_None k l : afind k l = None <-> ~ In k (akeys l).
  Proof.
    induction l as [|[k' v'] l IH]; simpl; [tauto|].
    destruct (eq_dec k k'); split; intros; subst; try congruence; intuition.
  Qed.

  Lemma afind_Some_key k v l : afind k l = Some v -> In k (akeys l).
  Proof. intros E. apply afind_In in E. apply (in_map fst) in E. exact E. Qed.

  Lemma In_afind k v l : NoDup (akeys l) -> In (k, v) l -> afind k l = Some v.
  Proof.
    induction l as [|[k' v'] l IH]; simpl; [tauto|].
    intros Hnd [E|Hin]; inversion Hnd; subst.
    - injection E; intros; subst. destruct (eq_dec k k); congruence.
    - destruct (eq_dec k k'); subst; auto.
      exfalso. apply H2. apply (in_map fst) in Hin. exact Hin.
  Qed.

  Lemma In_afind_iff k v l :
    NoDup (akeys l) -> (In (k, v) l <-> afind k l = Some v).
  Proof. split; auto using In_afind, afind_In. Qed.

  Lemma In_akeys_aset k k' v l :
    In k (akeys (aset k' v l)) <-> k = k' \/ In k (akeys l).
  Proof.
    induction l as [|[k2 v2] l IH]; simpl.
    - intuition.
    - destruct (eq_dec k' k2); simpl; subst; intuition.
  Qed.

  Lemma NoDup_aset k v l : NoDup (akeys l) -> NoDup (akeys (aset k v l)).
  Proof.
    induction l as [|[k2 v2] l IH]; simpl; intros Hnd.
    - constructor; [simpl; tauto|constructor].
    - inversion Hnd; subst. destruct (eq_dec k k2); subst; simpl.
      + constructor; auto.
      + constructor; auto. rewrite In_akeys_aset. intuition.
  Qed.

  Lemma In_akeys_adel k k' l : In k (akeys (adel k' l)) -> In k (akeys l).
  Proof.
    induction l as [|[k2 v2] l IH]; simpl; auto.
    destruct (eq_dec k' k2); simpl; intuition.
  Qed.

  Lemma NoDup_adel k l : NoDup (akeys l) -> NoDup (akeys (adel k l)).
  Proof.
    induction l as [|[k2 v2] l IH]; simpl; intros Hnd; auto.
    inversion Hnd; subst. destruct (eq_dec k k2); subst; simpl; auto.
    constructor; auto. intros Hin. apply In_akeys_adel in Hin. auto.
  Qed.

  Lemma afind_adel_eq k l : NoDup (akeys l) -> afind k (adel k l) = None.
  Proof.
    induction l as [|[k2 v2] l IH]; simpl; intros Hnd; auto.
    inversion Hnd; subst. destruct (eq_dec k k2); subst; simpl.
    - apply afind_None; auto.
    - destruct (eq_dec k k2); [congruence|auto].
  Qed.

  Lemma afind_adel_neq k k' l : k <> k' -> afind k (adel k' l) = afind k l.
  Proof.
    intros Hne. induction l as [|[k2 v2] l IH]; simpl; auto.
    destruct (eq_dec k' k2); subst; simpl; destruct (eq_dec k k2); congruence.
  Qed.

  Lemma afind_adel k k' l : NoDup (akeys l) ->
    afind k (adel k' l) = if eq_dec k k' then None else afind k l.
  Proof.
    intros; destruct (eq_dec k k'); subst; auto using afind_adel_eq, afind_adel_neq.
  Qed.

  Lemma aset_same_len k v l : In k (akeys l) -> length (aset k v l) = length l.
  Proof.
    induction l as [|[k2 v2] l IH]; simpl; [tauto|]. intros Hin.
    destruct (eq_dec k k2); simpl; auto. f_equal. apply IH. intuition congruence.
  Qed.
End Assoc.

(** Sets as duplicate-free lists (std::set / DenseSet insertion). *)
Definition sinsert {A} `{EqDec A} (x : A) (l : list A) : list A :=
  if in_dec eq_dec x l then l else l ++ [x].

Lemma In_sinsert {A} `{EqDec A} (x y : A) l : In y (sinsert x l) <-> y = x \/ In y l.
Proof.
  unfold sinsert. destruct (in_dec eq_dec x l).
  - split; intuition. subst; auto.
  - rewrite in_app_iff. simpl. intuition.
Qed.

Lemma NoDup_app_single {A} (x : A) l : NoDup l -> ~ In x l -> NoDup (l ++ [x]).
Proof.
  intros Hnd Hx. apply NoDup_rev in Hnd.
  rewrite <- (rev_involutive (l ++ [x])). apply NoDup_rev.
  rewrite rev_app_distr. simpl. constructor; auto.
  rewrite <- in_rev. auto.
Qed.

Lemma NoDup_sinsert {A} `{EqDec A} (x : A) l : NoDup l -> NoDup (sinsert x l).
Proof.
  unfold sinsert. destruct (in_dec eq_dec x l); auto using NoDup_app_single.
Qed.

Definition mem {A} `{EqDec A} (x : A) (l : list A) : bool :=
  if in_dec eq_dec x l then true else false.

Lemma mem_true {A} `{EqDec A} (x : A) l : mem x l = true <-> In x l.
Proof. unfold mem; destruct (in_dec eq_dec x l); intuition congruence. Qed.
Lemma mem_false {A} `{EqDec A} (x : A) l : mem x l = false <-> ~ In x l.
Proof. unfold mem; destruct (in_dec eq_dec x l); intuition congruence. Qed.
