(** What the call graph should contain. *)
From Coq Require Import List.
From Verif Require Import CallGraphModel CGBuilderModel.
Import ListNotations.

Section Spec.
  Context {R : Type}.
  Variable isDecl : fn -> bool.
  Variable instrs : fn -> list instr.
  Variable resolve : R -> inst -> list fn.
  Variables pre post other : R -> inst -> R.
  Variable handle : R -> inst -> list fn -> R.

  (** the targets of a call given the resolver's information [r] *)
  Definition targetsOf (r : R) (n : inst) (c : callee) : list fn :=
    match c with Static f => [f] | Asm => [] | Indirect => resolve r n end.

  (** reachable from the entry points through those targets *)
  Inductive creach (entry : list fn) (r : R) : fn -> Prop :=
  | cr_entry f : In f entry -> creach entry r f
  | cr_call g n c t : creach entry r g -> isDecl g = false -> In (CallI n c) (instrs g) -> In t (targetsOf r n c) -> creach entry r t.

  (** a well-formed module with function set [U]: every call site occurs once *)
  Definition sites (f : fn) : list inst := flat_map (fun i => match i with CallI n _ => [n] | OtherI _ => [] end) (instrs f).
  Record wfModule (U : list fn) : Prop := {
    wf_sites : forall f, NoDup (sites f);
    wf_disj : forall f g n, In n (sites f) -> In n (sites g) -> f = g;
    wf_static : forall f n t, In f U -> In (CallI n (Static t)) (instrs f) -> In t U;
    wf_resolve : forall r n, incl (resolve r n) U /\ NoDup (resolve r n) }.

  (** the resolver's information only grows, and its answers with it *)
  Record monotone (le : R -> R -> Prop) : Prop := {
    m_refl : forall r, le r r;
    m_trans : forall a b c, le a b -> le b c -> le a c;
    m_pre : forall r n, le r (pre r n);
    m_post : forall r n, le r (post r n);
    m_other : forall r n, le r (other r n);
    m_handle : forall r n ts, le r (handle r n ts);
    m_resolve : forall a b n, le a b -> incl (resolve a n) (resolve b n) }.
  (** preCall and postCall do not influence the answers (they are empty in all resolvers) *)
  Definition quietCalls : Prop := forall r n m, resolve (pre r n) m = resolve r m /\ resolve (post r n) m = resolve r m.
  (** the resolver has no mutable information at all *)
  Definition stateless : Prop := forall r r' n, resolve r n = resolve r' n.
End Spec.
