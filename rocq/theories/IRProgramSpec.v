(** What the programs of IRProgramModel.v do when they run, where each value is
    marked or not (uninitialised, tainted).  Copies keep the mark.

    Branches go either way.  All of an aggregate has one mark. *)
From Coq Require Import List Bool ZArith Arith.
From Verif Require Import Assoc IDESolverModel IRProgramModel.
Import ListNotations.

Inductive loc := LGlob (g : nat) | LMem (k : nat).
#[global] Instance EqDec_loc : EqDec loc.
Proof. intros [g|k] [g'|k']; try (right; discriminate); [destruct (Nat.eq_dec g g') as [->|H]|destruct (Nat.eq_dec k k') as [->|H]];
  (now left) || (right; congruence). Defined.
Inductive payload := PInt (z : Z) | PPtr (l : loc).
Definition cval := (payload * bool)%type.
Definition marked (c : cval) : bool := snd c.

Section Sem.
  Context {N F : Type} {EN : EqDec N} {EF : EqDec F}.
  Local Notation value := (value N F).
  Variable p : prog N F.
  (** are the contents of new variables marked; is undef marked; is the result of an
      operation marked if an operand is *)
  Variable fresh undef arith : bool.
  (** the possible effects of a function without a body at a call site: arguments,
      memory before, result, memory behind *)
  Variable ext : N -> F -> list cval -> (loc -> cval) -> cval -> (loc -> cval) -> Prop.

  Definition env := value -> option cval.
  Definition mem := loc -> cval.
  Definition upd (E : env) (x : value) (c : cval) : env := fun y => if eq_dec x y then Some c else E y.
  Definition write (M : mem) (l : loc) (c : cval) : mem := fun l' => if eq_dec l l' then c else M l'.
  Definition eval (E : env) (v : value) : option cval :=
    match v with
    | VZero => None
    | VUndef => Some (PInt 0, undef)
    | VConst k => Some (PInt (Z.of_nat k), false)
    | VGlob g => Some (PPtr (LGlob g), false)
    | _ => E v
    end.
  Definition evals (E : env) (vs : list value) (cs : list cval) : Prop := Forall2 (fun v c => eval E v = Some c) vs cs.

  (** the result of an instruction that neither touches memory nor calls *)
  Inductive computes (E : env) : instr N F -> cval -> Prop :=
  | cp_cast v c : eval E v = Some c -> computes E (ICast v) c
  | cp_gep q idx pl m cs : eval E q = Some (pl, m) -> evals E idx cs -> computes E (IGep q idx) (pl, m || (arith && existsb marked cs))
  | cp_phi vs v c : In v vs -> eval E v = Some c -> computes E (IPhi vs) c
  | cp_extract agg c : eval E agg = Some c -> computes E (IExtract agg) c
  | cp_insert agg v pl m c : eval E agg = Some (pl, m) -> eval E v = Some c -> computes E (IInsert agg v) (pl, m || marked c)
  | cp_op ops cs pl : evals E ops cs -> ((exists z, pl = PInt z) \/ In pl (map fst cs)) ->
      computes E (IOp ops) (pl, arith && existsb marked cs).

  (** statement about to run, registers, pending calls (call site, callee, registers
      of the caller), memory, number of allocations so far *)
  Definition conf := (N * env * list (N * F * env) * mem * nat)%type.

  Inductive step : conf -> conf -> Prop :=
  | st_alloca n n' E K M k b u :
      code p n = IAlloca b -> In n' (succs p n) ->
      step (n, E, K, M, k) (n', upd E (VInst n) (PPtr (LMem k), false), K, write M (LMem k) (PInt u, fresh), S k)
  | st_store n n' E K M k v q l m c :
      code p n = IStore v q -> In n' (succs p n) -> eval E q = Some (PPtr l, m) -> eval E v = Some c ->
      step (n, E, K, M, k) (n', E, K, write M l c, k)
  | st_load n n' E K M k q l m :
      code p n = ILoad q -> In n' (succs p n) -> eval E q = Some (PPtr l, m) ->
      step (n, E, K, M, k) (n', upd E (VInst n) (fst (M l), m || marked (M l)), K, M, k)
  | st_compute n n' E K M k c :
      computes E (code p n) c -> In n' (succs p n) -> step (n, E, K, M, k) (n', upd E (VInst n) c, K, M, k)
  | st_call n E K M k b fs args f sp E' cs :
      code p n = ICall b fs args -> In f fs -> entry p f = Some sp -> length args = nparams p f -> evals E args cs ->
      (forall x, E' x = match x with VArg g i => if eq_dec f g then nth_error cs i else None | _ => None end) ->
      step (n, E, K, M, k) (sp, E', (n, f, E) :: K, M, k)
  | st_extern n n' E K M k b fs args f cs x M' :
      code p n = ICall b fs args -> In f fs -> entry p f = None -> In n' (succs p n) -> evals E args cs -> ext n f cs M x M' ->
      step (n, E, K, M, k) (n', upd E (VInst n) x, K, M', k)
  | st_ret n n' E c f Ec K M k v x :
      code p n = IRet (Some v) -> In n' (succs p c) -> eval E v = Some x ->
      step (n, E, (c, f, Ec) :: K, M, k) (n', upd Ec (VInst c) x, K, M, k)
  | st_retvoid n n' E c f Ec K M k :
      code p n = IRet None -> In n' (succs p c) ->
      step (n, E, (c, f, Ec) :: K, M, k) (n', Ec, K, M, k).

  (** executions of main; its parameters are integers, marked as [pm] says *)
  Inductive exec (main : F) (pm : nat -> bool) : conf -> Prop :=
  | ex_start sp E M : entry p main = Some sp ->
      (forall x c, E x = Some c -> exists i z, i < nparams p main /\ x = VArg main i /\ c = (PInt z, pm i)) ->
      (forall g, exists z, M (LGlob g) = (PInt z, false)) ->
      exec main pm (sp, E, [], M, 0)
  | ex_step c c' : exec main pm c -> step c c' -> exec main pm c'.

  Record prog_wf : Prop := {
    pw_nodes : forall n, In n (nodes p);
    pw_succ : forall n n', In n' (succs p n) -> fnOf p n' = fnOf p n;
    pw_entry : forall f sp, entry p f = Some sp -> fnOf p sp = f;
    pw_noentry : forall n n' f, In n' (succs p n) -> entry p f <> Some n';
    pw_nozero : forall n, ~ In VZero (operands p n)
  }.
End Sem.
