(** Concrete client edge functions over LatticeDomain<int64_t>-like values,
    used to show that the hypotheses of the C13/C14 theorems can be met, and as
    witnesses. *)
From Coq Require Import List Bool ZArith Lia.
From Verif Require Import LatticeModel LatticeSpec LatticeProofs EdgeFunctionModel EdgeFunctionProofs.
Import ListNotations.

Definition zops : lops (ld Z) := mkLops _ (ldJoin Z.eqb) LTop LBot (ldEqb Z.eqb).

Lemma zops_ok : lops_ok zops.
Proof. constructor; [apply ldJoin_leibniz|apply ldEqb_leibniz]; apply Z.eqb_eq. Qed.

(** [Add a k]: add k, allocated at address a; [Norm]: every non-top value becomes 0 *)
Inductive zuser := Add (addr : nat) (k : Z) | Norm.
Definition zapply (u : zuser) (x : ld Z) : ld Z :=
  match u, x with
  | _, LTop => LTop
  | Add _ k, LVal z => LVal (z + k)%Z
  | Add _ _, LBot => LBot
  | Norm, _ => LVal 0%Z
  end.
Definition zeqb (u w : zuser) : bool :=
  match u, w with
  | Add _ k, Add _ l => Z.eqb k l
  | Norm, Norm => true
  | _, _ => false
  end.
Definition zcompose (u : zuser) (g : ef (ld Z) zuser) : ef (ld Z) zuser :=
  match g with
  | EId => EUser u
  | EBot | ETop | EConst _ => g
  | _ => EComp (EUser u) g
  end.
Definition zjoin (f g : ef (ld Z) zuser) : ef (ld Z) zuser :=
  match g with ETop => f | _ => EBot end.
Definition zclient : clientops (ld Z) zuser :=
  mkClient _ _ zapply (fun _ => false) zeqb zcompose (fun u => zjoin (EUser u))
    (fun a b => zjoin (EComp a b)).

Lemma zclient_ok : client_ok zops zclient.
Proof.
  assert (J : forall f g x, le zops (apply zops zclient f x) (apply zops zclient (zjoin f g) x) /\
                            le zops (apply zops zclient g x) (apply zops zclient (zjoin f g) x)).
  { intros f g x. unfold zjoin.
    destruct g; try (split; apply (le_bot zops zops_ok); fail).
    split; [apply (le_refl zops zops_ok)|apply (le_top zops zops_ok)]. }
  constructor.
  - intros [] [] []; cbn; try discriminate; auto. intros E. apply Z.eqb_eq in E. now subst.
  - discriminate.
  - intros u g x. cbn. unfold zcompose. destruct g; reflexivity.
  - intros u g x. apply (J (EUser u)).
  - intros a b g x. apply (J (EComp a b)).
Qed.

Lemma zclient_mono : client_mono zops zclient.
Proof.
  intros u x y. unfold le, zops, ldJoin. cbn.
  destruct u as [a k|], x as [|v|], y as [|w|]; cbn; auto; try discriminate.
  - destruct (Z.eqb v w) eqn:E; [|discriminate]. apply Z.eqb_eq in E. subst.
    now rewrite Z.eqb_refl.
Qed.

(** operator<: the address of an Add object; library objects before them, by a
    class number (they are distinct objects as well) *)
Definition zaddr (f : ef (ld Z) zuser) : nat :=
  match f with EUser (Add a _) => a | EUser Norm => 1 | EId => 2 | _ => 0 end.
Definition zltb (_ : nat) (f g : ef (ld Z) zuser) : bool :=
  negb (efEqb zops zclient f g) && Nat.ltb (zaddr f) (zaddr g).

(** Client objects that are shared: == is identity. [nat] k stands for "add k". *)
Definition nclient : clientops (ld Z) nat :=
  mkClient _ _ (fun k x => match x with LVal z => LVal (z + Z.of_nat k)%Z | _ => x end)
    (fun _ => false) Nat.eqb
    (fun u g => match g with
                | EId => EUser u
                | EBot | ETop | EConst _ => g
                | _ => EComp (EUser u) g
                end)
    (fun u g => match g with ETop => EUser u | _ => EBot end)
    (fun a b g => match g with ETop => EComp a b | _ => EBot end).

Lemma nclient_eq : forall f g, efEqb zops nclient f g = true <-> f = g.
Proof.
  intros f g. split.
  - revert g. induction f using ef_nind; intros g E; destruct g; cbn [efEqb] in E; try discriminate; auto.
    + f_equal. now apply (ldEqb_leibniz Z.eqb Z.eqb_eq).
    + apply andb_true_iff in E as [E1 E3]. apply andb_true_iff in E1 as [E1 E2].
      apply Nat.eqb_eq in E1. apply (ldEqb_leibniz Z.eqb Z.eqb_eq) in E2. subst.
      f_equal. revert vec0 E3. induction H as [|a l Ha Hl IH]; intros [|b r] E; try discriminate; auto.
      apply andb_true_iff in E as [E1 E2]. f_equal; auto.
    + apply andb_true_iff in E as [E1 E3]. apply andb_true_iff in E1 as [E1 E2].
      apply Nat.eqb_eq in E1. subst. f_equal; auto.
    + apply andb_true_iff in E as [E1 E2]. f_equal; auto.
    + apply Nat.eqb_eq in E. now subst.
  - intros ->. apply efEqb_refl; [exact zops_ok|exact Nat.eqb_refl].
Qed.

(** prefix code of edge functions, standing for their addresses *)
Definition encL (v : ld Z) : list nat :=
  match v with LTop => [0] | LBot => [1] | LVal z => [2; Z.to_nat z; Z.to_nat (- z)] end.
Fixpoint enc (f : ef (ld Z) nat) : list nat :=
  match f with
  | EId => [0] | EBot => [1] | ETop => [2]
  | EConst v => 3 :: encL v
  | EJoin n s vec => 4 :: n :: encL s ++ length vec :: flat_map enc vec
  | EJComp n a b => 5 :: n :: enc a ++ enc b
  | EComp a b => 6 :: enc a ++ enc b
  | EUser u => [7; u]
  end.

Lemma encL_inj v w r s : encL v ++ r = encL w ++ s -> v = w /\ r = s.
Proof.
  destruct v, w; cbn; intros [=]; subst; auto. split; auto. f_equal. lia.
Qed.

Lemma enc_inj : forall f g r s, enc f ++ r = enc g ++ s -> f = g /\ r = s.
Proof.
  induction f using ef_nind; intros g r q E; destruct g; cbn in E;
    repeat rewrite <- app_assoc in E; cbn in E; try discriminate;
    try (injection E as E; subst; auto; fail).
  - injection E as E. apply encL_inj in E as [-> ->]. auto.
  - injection E as -> E. apply encL_inj in E as [-> E]. injection E as El E.
    assert (W : vec = vec0 /\ r = q); [|destruct W; subst; auto].
    revert vec0 El E. induction H as [|a l Ha Hl IH]; intros [|b t] El E; try discriminate; auto.
    cbn in E. repeat rewrite <- app_assoc in E. apply Ha in E as [-> E].
    apply IH in E as [-> ->]; auto.
  - injection E as -> E. apply IHf1 in E as [-> E]. apply IHf2 in E as [-> ->]. auto.
  - injection E as E. apply IHf1 in E as [-> E]. apply IHf2 in E as [-> ->]. auto.
Qed.

Fixpoint lexb (a b : list nat) : bool :=
  match a, b with
  | _, [] => false
  | [], _ :: _ => true
  | x :: a', y :: b' => if Nat.ltb x y then true else if Nat.eqb x y then lexb a' b' else false
  end.

Lemma lexb_irrefl a : lexb a a = false.
Proof. induction a; cbn [lexb]; auto. now rewrite Nat.ltb_irrefl, Nat.eqb_refl. Qed.

Lemma lexb_trans a : forall b c, lexb a b = true -> lexb b c = true -> lexb a c = true.
Proof.
  induction a as [|x a IH]; intros [|y b] [|z c]; cbn [lexb]; try discriminate; auto.
  destruct (Nat.ltb_spec x y), (Nat.ltb_spec y z), (Nat.ltb_spec x z); try lia; auto;
    destruct (Nat.eqb_spec x y), (Nat.eqb_spec y z), (Nat.eqb_spec x z); try lia; try discriminate; eauto.
Qed.

Lemma lexb_total a : forall b, lexb a b = false -> lexb b a = false -> a = b.
Proof.
  induction a as [|x a IH]; intros [|y b]; cbn [lexb]; try discriminate; auto.
  destruct (Nat.ltb_spec x y), (Nat.ltb_spec y x); try lia; try discriminate.
  assert (x = y) by lia. subst. rewrite Nat.eqb_refl. intros. f_equal. auto.
Qed.

Definition nlt (f g : ef (ld Z) nat) : bool := lexb (enc f) (enc g).

Lemma nlt_total f g : nlt f g = false -> nlt g f = false -> f = g.
Proof.
  intros A B. apply (enc_inj f g [] []). rewrite !app_nil_r. now apply lexb_total.
Qed.
