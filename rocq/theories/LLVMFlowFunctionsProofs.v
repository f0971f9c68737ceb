From Coq Require Import List Bool Arith Lia.
From Verif Require Import Assoc LLVMFlowFunctionsModel LLVMFlowFunctionsSpec.
Import ListNotations.

Lemma nth_combine {A B} (l : list A) : forall (r : list B) i a b,
  nth_error (combine l r) i = Some (a, b) <-> nth_error l i = Some a /\ nth_error r i = Some b.
Proof.
  induction l as [|x l IH]; intros r i a b; cbn [combine].
  - destruct i; cbn; split; [discriminate|intros [? _]; discriminate|discriminate|intros [? _]; discriminate].
  - destruct r as [|y r].
    + destruct i; cbn; split; [discriminate|intros [_ ?]; discriminate|discriminate|intros [_ ?]; discriminate].
    + destruct i; cbn; [|apply IH]. split; [intros E; injection E as -> ->; auto|intros [[= ->] [= ->]]; auto].
Qed.
Lemma nth_skipn {A} (l : list A) : forall k i, nth_error (skipn k l) i = nth_error l (k + i).
Proof. induction l as [|x l IH]; intros [|k] i; cbn; auto. now destruct i. Qed.
Lemma In_nth_error' {A} (l : list A) x : In x l <-> exists i, nth_error l i = Some x.
Proof. split; [apply In_nth_error|]. intros [i Hi]. eapply nth_error_In; eauto. Qed.
Lemma nth_lt {A} (l : list A) i x : nth_error l i = Some x -> i < length l.
Proof. intros E. apply nth_error_Some. rewrite E. discriminate. Qed.

Lemma eqb_false {A} {E : EqDec A} (x y : A) : eqb x y = false -> x <> y.
Proof. intros H ->. rewrite eqb_refl in H. discriminate. Qed.
Lemma neq_eqb {A} {E : EqDec A} (x y : A) : x <> y -> eqb x y = false.
Proof. intros N. destruct (eqb x y) eqn:X; auto. apply eqb_eq in X. now elim N. Qed.

Section P.
  Context {V D : Type}.
  Variable isZero isConstant : D -> bool.
  Variable is : V -> D -> bool.
  Variable mk : V -> D.

  Lemma mapped_In (p : V * V -> bool) (tgt : V * V -> V) l r d' :
    In d' (flat_map (fun pa : V * V => if p pa then [mk (tgt pa)] else []) (combine l r)) <->
    exists i x y, nth_error l i = Some x /\ nth_error r i = Some y /\ p (x, y) = true /\ d' = mk (tgt (x, y)).
  Proof.
    rewrite in_flat_map. split.
    - intros ([x y] & Hin & Hd). apply In_nth_error in Hin as [i Hi]. apply nth_combine in Hi as [H1 H2].
      exists i, x, y. destruct (p (x, y)) eqn:E; [|destruct Hd]. destruct Hd as [<-|[]]. auto.
    - intros (i & x & y & H1 & H2 & Hp & ->). exists (x, y). split.
      + eapply nth_error_In. apply nth_combine. eauto.
      + rewrite Hp. now left.
  Qed.

  Lemma arityOk_spec args (f : callee V) : arityOk args f = true <->
    length (cParams f) <= length args /\ (length args = length (cParams f) \/ cVarArg f = true).
  Proof. unfold arityOk. rewrite andb_true_iff, orb_true_iff, Nat.leb_le, Nat.eqb_eq. reflexivity. Qed.
End P.
