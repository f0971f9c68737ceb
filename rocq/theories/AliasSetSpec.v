(** What the alias sets should be. *)
From Coq Require Import List Bool Arith.
From Verif Require Import Assoc AliasSetModel.
Import ListNotations.

(** the equivalence relation on [D] generated by [L] *)
Inductive conn (D : nat -> Prop) (L : nat -> nat -> Prop) : nat -> nat -> Prop :=
| c_refl v : D v -> conn D L v v
| c_link v w : L v w -> conn D L v w
| c_sym v w : conn D L v w -> conn D L w v
| c_trans u v w : conn D L u v -> conn D L v w -> conn D L u w.

(** what the analysis answers: [w] is in the alias set [v] refers to *)
Definition known (s : ast) (v : nat) : Prop := exists b, afind v (sets s) = Some b.
Definition aliased (s : ast) (v w : nat) : Prop := exists b l, afind v (sets s) = Some b /\ deref s b = Some l /\ In w l.

Section Module.
  Variables isPtr isNull isInst isFunc isGlob decl : nat -> bool.
  Variable castOp : nat -> option nat.
  Variable globalsOf : nat -> list nat.
  Variable fnInstrs : nat -> list instr.
  Variable fnArgs : nat -> list nat.
  Variable may : nat -> nat -> nat -> bool.
  Variable users : nat -> list user.

  (** aliases caused by storing functions and constant casts *)
  Definition fnLink (f v w : nat) : Prop :=
    exists i svo, In i (fnInstrs f) /\ iStore i = Some (svo, w) /\ isPtr svo = true
      /\ ((isFunc svo = true /\ v = svo) \/ exists rhs, castOp svo = Some rhs /\ (v = svo \/ (v = rhs /\ isPtr rhs = true))).

  (** the pointers of a function *)
  Definition pointerOf (f v : nat) : Prop :=
    (exists i, In i (fnInstrs f) /\ v = iV i /\ isPtr v = true)
    \/ (exists i, In i (fnInstrs f) /\ (In v (iOps i) \/ (iCallee i = Some v /\ isFunc v = false)) /\ isInst v = false /\ interesting isPtr isNull v = true)
    \/ (In v (fnArgs f) /\ isPtr v = true)
    \/ (exists i o, In i (fnInstrs f) /\ In o (iOps i) /\ In v (globalsOf o)).
  Definition mayLink (f v w : nat) : Prop := pointerOf f v /\ pointerOf f w /\ may f v w = true.
  Definition equivMay (f : nat) : Prop :=
    (forall v, pointerOf f v -> may f v v = true)
    /\ (forall v w, mayLink f v w -> may f w v = true)
    /\ (forall u v w, mayLink f u v -> mayLink f v w -> may f u w = true).

  (** aliases caused by the uses of a global object *)
  Definition userLink (g v w : nat) : Prop :=
    exists u f, In u (users g) /\ uFn u = Some f
      /\ ((isFunc g = false /\ interesting isPtr isNull (uV u) = true /\ v = uV u /\ w = g)
          \/ (~ (isFunc g = false /\ interesting isPtr isNull (uV u) = true) /\ uStore u = Some (v, w) /\ interesting isPtr isNull v = true)).

  (** histories *)
  Definition queried (ops : list op) (v : nat) : Prop :=
    interesting isPtr isNull v = true /\
    (In (OCompute v) ops \/ exists w, interesting isPtr isNull w = true /\ (In (OIntroduce v w) ops \/ In (OIntroduce w v) ops)).
  Definition introduced (ops : list op) (v w : nat) : Prop :=
    In (OIntroduce v w) ops /\ interesting isPtr isNull v = true /\ interesting isPtr isNull w = true.
  Definition must (ops : list op) (An : list nat) (v w : nat) : Prop :=
    introduced ops v w
    \/ (exists f, In f An /\ decl f = false /\ fnLink f v w)
    \/ (exists g, queried ops g /\ isGlob g = true /\ userLink g v w).
  Definition mayL (An : list nat) (v w : nat) : Prop := exists f, In f An /\ decl f = false /\ mayLink f v w.

  (** well-formed modules; [wf_store] excludes stores to the null pointer *)
  Record wfModule : Prop := mkWF {
    wf_user : forall g u f, In u (users g) -> uFn u = Some f -> decl f = false /\ exists i, In i (fnInstrs f) /\ iV i = uV u /\ iStore i = uStore u;
    wf_store : forall f i svo spo, In i (fnInstrs f) -> iStore i = Some (svo, spo) ->
      In svo (iOps i) /\ In spo (iOps i) /\ interesting isPtr isNull spo = true;
    wf_local : forall f i o, In i (fnInstrs f) -> In o (iOps i) -> isInst o = true -> exists j, In j (fnInstrs f) /\ iV j = o
  }.
End Module.

(** merging: the entries of the other analysis; every value of a set has an entry with the same set *)
Record wfEntries (es : list (nat * list nat)) : Prop := mkWFE {
  e_key : forall k set, In (k, set) es -> In k set;
  e_all : forall k set x, In (k, set) es -> In x set -> exists set', In (x, set') es;
  e_same : forall k set k' set' x, In (k, set) es -> In (k', set') es -> In x set -> In x set' -> forall y, In y set <-> In y set'
}.
Definition knownE (es : list (nat * list nat)) (v : nat) : Prop := exists set, In (v, set) es.
Definition aliasedE (es : list (nat * list nat)) (v w : nat) : Prop := exists set, In (v, set) es /\ In w set.
(** a class of the other analysis has values of at most one class of this one *)
Definition meetsOne (s : ast) (es : list (nat * list nat)) : Prop :=
  forall v w, aliasedE es v w -> known s v -> known s w -> aliased s v w.

(** the alias sets on their own: new singletons ([inl]) and introduced pairs ([inr]) *)
Definition ownerOp (asserts : bool) (fresh : list nat -> nat) (iter : list nat -> list nat) (acc : option ast) (o : nat + nat * nat) : option ast :=
  match acc with
  | None => None
  | Some s =>
      match o with
      | inl v => addSingleton asserts fresh v s
      | inr (v, w) => match addSingleton asserts fresh v s with
                      | Some s1 => match addSingleton asserts fresh w s1 with Some s2 => mergeValues iter v w s2 | None => None end
                      | None => None
                      end
      end
  end.
Definition mentioned (os : list (nat + nat * nat)) (v : nat) : Prop := In (inl v) os \/ exists w, In (inr (v, w)) os \/ In (inr (w, v)) os.
