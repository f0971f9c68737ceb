(** Model of IDESecureHeapPropagation: is OpenSSL's secure heap initialised?
    (lib/PhasarLLVM/DataFlow/IfdsIde/Problems/IDESecureHeapPropagation.cpp, below
    SHP.cpp; include/phasar/PhasarLLVM/DataFlow/IfdsIde/Problems/
    IDESecureHeapPropagation.h, below SHP.h.)

    Programs are those of IRProgramModel.v, the edge functions those of
    EdgeFunctionModel.v; the solver is IDESolverModel.v.

    Simplifications: the empty result of getSummaryEdgeFunction (never asked for, there
    are no summary flow functions) is the identity; one entry point; printing is left
    out.  SHPEdgeFn and SHPEdgeFunctionComposer (SHP.cpp:28-57) are not used. *)
From Coq Require Import String List Bool Arith.
From Verif Require Import Assoc IDESolverModel IRProgramModel EdgeFunctionModel.
Import ListNotations.

(** SHP.h:20-21 *)
Inductive heapFact := ZERO | INITIALIZED.
Inductive heapValue := TOP | INIT | BOT.
#[global] Instance EqDec_heapFact : EqDec heapFact. Proof. intros x y. change ({x = y} + {x <> y}). decide equality. Defined.
Definition hEqb (x y : heapValue) : bool :=
  match x, y with TOP, TOP | INIT, INIT | BOT, BOT => true | _, _ => false end.
(** SHP.h:26-35 *)
Definition hJoin (l r : heapValue) : heapValue :=
  if hEqb l r || hEqb r TOP then l else if hEqb l TOP then r else BOT.
Definition hops : lops heapValue := mkLops heapValue hJoin TOP BOT hEqb.

(** There are no further classes of edge functions. *)
Definition noClient : clientops heapValue Empty_set :=
  mkClient heapValue Empty_set (fun u _ => match u with end) (fun u => match u with end) (fun u _ => match u with end)
    (fun u _ => match u with end) (fun u _ => match u with end) (fun a _ _ => a).
Definition noLt (_ : nat) (_ _ : ef heapValue Empty_set) : bool := true.
(** The edge functions that occur *)
Definition basic (f : ef heapValue Empty_set) : bool :=
  match f with EId | EBot | ETop | EConst _ => true | _ => false end.
Definition hedge := { f : ef heapValue Empty_set | basic f = true }.

Section SHP.
  Context {N F : Type} {EN : EqDec N} {EF : EqDec F}.
  (** IsSOOCandidate of the ConstantEdgeFunction *)
  Variable soo : bool.
  Variable p : prog N F.
  (** Function::getName() *)
  Variable name : F -> string.

  Lemma compose_basic f g : basic f = true -> basic g = true -> basic (compose hops noClient soo f g) = true.
  Proof. destruct f, g; try discriminate; cbn; auto. Qed.
  Lemma join_basic f g : basic f = true -> basic g = true -> basic (join hops noClient soo noLt f g) = true.
  Proof. destruct f as [| | |[]| | | |], g as [| | |[]| | | |]; try discriminate; destruct soo; cbn; auto. Qed.
  Definition mk (f : ef heapValue Empty_set) (H : basic f = true) : hedge := exist _ f H.
  Definition idH : hedge := mk EId eq_refl.
  Definition topH : hedge := mk ETop eq_refl.
  Definition constH (v : heapValue) : hedge := mk (EConst v) eq_refl.
  Definition composeH (f g : hedge) : hedge := mk _ (compose_basic (proj1_sig f) (proj1_sig g) (proj2_sig f) (proj2_sig g)).
  Definition joinH (f g : hedge) : hedge := mk _ (join_basic (proj1_sig f) (proj1_sig g) (proj2_sig f) (proj2_sig g)).

  (** SHP.h:46-48 *)
  Definition InitializerFn : string := "CRYPTO_secure_malloc_init"%string.
  Definition ShutdownFn : string := "CRYPTO_secure_malloc_done"%string.
  (** CallBase::getCalledFunction(): null for indirect calls *)
  Definition calledFunction (c : N) : option F :=
    match code p c with ICall true (f :: _) _ => Some f | _ => None end.
  Definition calls (c : N) (fn : string) : bool :=
    match calledFunction c with Some f => String.eqb (name f) fn | None => false end.
  Definition zeroH (d : heapFact) : bool := match d with ZERO => true | INITIALIZED => false end.

  (** SHP.cpp:63-82: identityFlow *)
  Definition idFlow (d : heapFact) : list heapFact := [d].
  (** getCallToRetFlowFunction, SHP.cpp:84-98 *)
  Definition ctrFlow (c : N) (d : heapFact) : list heapFact :=
    if calls c InitializerFn then match d with ZERO => [ZERO; INITIALIZED] | _ => [d] end
    else idFlow d.
  (** getCallToRetEdgeFunction, SHP.cpp:151-170 *)
  Definition ctrEdge (c : N) (d : heapFact) (_ : N) (d' : heapFact) : hedge :=
    if zeroH d && negb (zeroH d') then constH INIT
    else if negb (zeroH d) && calls c ShutdownFn then constH BOT
    else idH.

  Definition shpProblem : problem N F heapFact heapValue hedge :=
    mkProblem (fun _ _ => idFlow) (fun _ _ => idFlow) (fun _ _ _ _ => idFlow) (fun c _ => ctrFlow c)
      (fun _ _ => None)                                (* SHP.cpp:99-103 *)
      (fun _ _ _ _ => idH) (fun _ _ _ _ => idH) (fun _ _ _ _ _ _ => idH)  (* SHP.cpp:124-149 *)
      ctrEdge (fun _ _ _ _ => idH) ZERO
      (fun f => apply hops noClient (proj1_sig f)) composeH joinH
      (fun f g => efEqb hops noClient (proj1_sig f) (proj1_sig g)) topH idH TOP BOT hJoin hEqb.

  (** createDefaultSeeds *)
  Definition shpSeeds (main : F) : @seeds N heapFact heapValue :=
    match entry p main with Some sp => [(sp, [(ZERO, BOT)])] | None => [] end.
End SHP.
