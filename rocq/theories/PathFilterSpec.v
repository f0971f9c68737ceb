(** Which paths are to be kept, independently of the filters: those whose
    constraints can hold together and whose calls and returns match. *)
From Coq Require Import List Permutation Sorted.
From Verif Require Import Assoc DFAMinimizerModel DFAMinimizerSpec PathDagModel PathDagSpec PathFilterModel.
Import ListNotations.

Section Formulas.
  Context {A E : Type}.
  (** [sat e a]: the atomic constraint [a] holds for the assignment [e] *)
  Variable sat : E -> A -> Prop.
  Fixpoint holds (e : E) (f : form A) : Prop :=
    match f with
    | FTrue => True
    | FFalse => False
    | FAtom a => sat e a
    | FAnd f g => holds e f /\ holds e g
    | FOr f g => holds e f \/ holds e g
    end.
  Definition satisfiable (l : list (form A)) : Prop := exists e, Forall (holds e) l.
  (** What "unsat" may mean: it is true (any solver), or it is said whenever it
      is true as well (one that never gives up). *)
  Definition soundSolver (unsat : list (form A) -> bool) : Prop := forall l, unsat l = true -> ~ satisfiable l.
  Definition decidingSolver (unsat : list (form A) -> bool) : Prop :=
    forall l, if unsat l then ~ satisfiable l else satisfiable l.
  (** [isFalse] recognises only what never holds *)
  Definition soundFalse (isFalse : form A -> bool) : Prop := forall f e, isFalse f = true -> ~ holds e f.
End Formulas.

Section Paths.
  Context {N A V E : Type}.
  Variable sat : E -> A -> Prop.
  Variable edgeConstraint : N -> N -> option (A * list V).

  (** all edges of a path are taken under [e] *)
  Fixpoint taken (e : E) (l : list N) : Prop :=
    match l with
    | a :: ((b :: _) as l') => (forall c vs, edgeConstraint a b = Some (c, vs) -> sat e c) /\ taken e l'
    | _ => True
    end.
  (** [add]: the additional constraint *)
  Definition admits (add : option (form A)) (e : E) : Prop := forall f, add = Some f -> holds sat e f.
  Definition feasible (add : option (form A)) (l : list N) : Prop := exists e, admits add e /\ taken e l.

  (** [leads G leaf v l]: the instructions [l] are on a path from [v] to [leaf];
      tags are stored backwards *)
  Inductive leads (G : pgraph N) (leaf : nat) : nat -> list N -> Prop :=
  | leads_end t : node G leaf = Some t -> leads G leaf leaf (rev t)
  | leads_on v u t l : node G v = Some t -> arc G v u -> leads G leaf u l -> leads G leaf v (rev t ++ l).

  (** ** Calls and returns *)
  Variable isCall isRet isTerm definedCall : N -> bool.
  Variable rest succFronts : N -> list N.
  (** [follows b a]: [b] comes after the call [a] in its function, without
      another call of a function with a body in between *)
  Definition follows (b a : N) : Prop :=
    (exists pre post, rest a = pre ++ b :: post /\ Forall (fun x => definedCall x = false) pre) \/
    (exists pre t, a :: rest a = pre ++ [t] /\ Forall (fun x => definedCall x = false) (tl pre) /\ In b (succFronts t)).
  (** blocks end with their only terminator *)
  Definition wellBlocked : Prop :=
    (forall a pre x post, rest a = pre ++ x :: post -> rest x = post) /\ (forall x, isTerm x = true <-> rest x = []).

  Inductive step := SCall (a : N) | SRet (b : N) | SGo.
  (** the step from [a] to [b] is a call, a return or neither *)
  Inductive stepOf (a b : N) : step -> Prop :=
  | step_call : isCall a = true -> ~ follows b a -> stepOf a b (SCall a)
  | step_ret : isRet a = true -> stepOf a b (SRet b)
  | step_go : isRet a = false -> (isCall a = false \/ follows b a) -> stepOf a b SGo.
  Fixpoint stepsOf (l : list N) (ss : list step) : Prop :=
    match l with
    | a :: ((b :: _) as l') => match ss with s :: ss' => stepOf a b s /\ stepsOf l' ss' | [] => False end
    | _ => ss = []
    end.
  (** every call returns to where it was *)
  Inductive balanced : list step -> Prop :=
  | bal_nil : balanced []
  | bal_go s : balanced s -> balanced (SGo :: s)
  | bal_call a b s s' : balanced s -> follows b a -> balanced s' -> balanced (SCall a :: s ++ SRet b :: s').
  (** returns to unknown callers come first, open calls last *)
  Inductive returning : list step -> Prop :=
  | ret_none : returning []
  | ret_more s b s' : balanced s -> returning s' -> returning (s ++ SRet b :: s').
  Inductive calling : list step -> Prop :=
  | call_none s : balanced s -> calling s
  | call_more s a s' : balanced s -> calling s' -> calling (s ++ SCall a :: s').
  Definition realizable (l : list N) : Prop :=
    exists ss s1 s2, stepsOf l ss /\ ss = s1 ++ s2 /\ returning s1 /\ calling s2.
End Paths.

(** The contract of std::sort for paths: shorter ones first, those of the same
    length in the lexicographical order of the addresses. *)
Section Sorting.
  Context {N A : Type}.
  Variable addr : N -> nat.
  Fixpoint lexLess (l m : list N) : Prop :=
    match l, m with
    | _, [] => False
    | [], _ :: _ => True
    | a :: l', b :: m' => addr a < addr b \/ (addr a = addr b /\ lexLess l' m')
    end.
  Definition pathLess (p q : list N * form A) : Prop :=
    length (fst p) < length (fst q) \/ (length (fst p) = length (fst q) /\ lexLess (fst p) (fst q)).
  Definition sorts (sort : list (list N * form A) -> list (list N * form A)) : Prop :=
    forall l, Permutation l (sort l) /\ StronglySorted (fun p q => ~ pathLess q p) (sort l).
End Sorting.

Section Ends.
  Context {N : Type}.
  (** the graph has one end, whose first instruction is [final] *)
  Record oneEnd (G : pgraph N) (leaf : nat) (final : N) : Prop := mkOneEnd {
    o_wf : wf G;
    o_acyclic : acyclic G;
    o_tags : forall v, v < size G -> tagOf G v <> [];
    o_roots : NoDup (roots G);
    o_leaf : leaf < size G;
    o_out : outEdges G leaf = [];
    o_only : forall v, v < size G -> outEdges G v = [] -> v = leaf;
    o_final : hd_error (tagOf G leaf) = Some final }.
End Ends.
