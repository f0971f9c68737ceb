(** What the programs of LCAProgramModel.v do when they run, independently of
    the analysis, and the programs for which the results are right.

    A value at run time is an integer (its signed value), a pointer or the pair an
    overflow intrinsic returns.  Branches go either way; an [IOther] instruction
    (cast, comparison, phi, select, branch) has any integer as result. *)
From Coq Require Import List Bool ZArith Arith.
From Verif Require Import Assoc LCAModel LCASpec LCAProgramModel.
Import ListNotations.

Inductive loc := LGlob (g : nat) | LMem (k : nat).
#[global] Instance EqDec_loc : EqDec loc.
Proof. intros [g|k] [g'|k']; try (right; discriminate); [destruct (Nat.eq_dec g g') as [->|H]|destruct (Nat.eq_dec k k') as [->|H]];
  (now left) || (right; congruence). Defined.
Inductive cval := CInt (z : Z) | CPtr (l : loc) | CAgg (z flag : Z).

Section Sem.
  Context {N F : Type} {EN : EqDec N} {EF : EqDec F}.
  Local Notation value := (value N F).
  Local Notation var := (var N F).
  Variable p : prog N F.

  Definition env := var -> option cval.
  Definition upd (E : env) (x : var) (c : cval) : env := fun y => if eq_dec x y then Some c else E y.
  Definition write (M : loc -> cval) (l : loc) (c : cval) : loc -> cval := fun l' => if eq_dec l l' then c else M l'.
  Definition eval (E : env) (v : value) : option cval :=
    match v with
    | Zero => None
    | Const _ z => Some (CInt z)
    | Val (VGlob g) => Some (CPtr (LGlob g))
    | Val x => E x
    end.

  (** [c] is the result of the operation on integers of width w; with nsw a result
      outside the type is poison, and execution ends *)
  Inductive computes (w : Z) (nsw : bool) (op : opcode) (a b : Z) : Z -> Prop :=
  | comp u v x : fits w u -> fits w v -> signed w u = a -> signed w v = b -> llvm w op u v = Some x ->
      (nsw = true -> match op with
                     | Add => inRange w (a + b)
                     | Sub => inRange w (a - b)
                     | Mul => inRange w (a * b)
                     | _ => True
                     end) ->
      computes w nsw op a b (signed w x).
  (** the i1 of an overflow intrinsic; true is -1 *)
  Definition overflows (w : Z) (op : opcode) (a b flag : Z) : Prop :=
    let r := match op with Sub => a - b | Mul => a * b | _ => a + b end%Z in
    (inRange w r /\ flag = 0%Z) \/ (~ inRange w r /\ flag = (-1)%Z).

  (** statement about to run, variables, pending calls (call site, callee,
      variables of the caller), memory, number of allocations so far *)
  Definition conf := (N * env * list (N * F * env) * (loc -> cval) * nat)%type.

  Inductive step : conf -> conf -> Prop :=
  | st_alloca n n' E K M k b u :
      code p n = IAlloca b -> In n' (succs p n) ->
      step (n, E, K, M, k) (n', upd E (VInst n) (CPtr (LMem k)), K, write M (LMem k) u, S k)
  | st_store n n' E K M k v q b i l c :
      code p n = IStore v q b i -> In n' (succs p n) -> eval E q = Some (CPtr l) -> eval E v = Some c ->
      step (n, E, K, M, k) (n', E, K, write M l c, k)
  | st_load n n' E K M k q i l :
      code p n = ILoad q i -> In n' (succs p n) -> eval E q = Some (CPtr l) ->
      step (n, E, K, M, k) (n', upd E (VInst n) (M l), K, M, k)
  | st_bin n n' E K M k w nsw op l r a b c :
      code p n = IBin w nsw op l r -> In n' (succs p n) -> eval E l = Some (CInt a) -> eval E r = Some (CInt b) ->
      computes w nsw op a b c -> step (n, E, K, M, k) (n', upd E (VInst n) (CInt c), K, M, k)
  | st_overflow n n' E K M k w op l r f a b c flag :
      code p n = IBinIntrin w op l r f -> In n' (succs p n) -> eval E l = Some (CInt a) -> eval E r = Some (CInt b) ->
      computes w false op a b c -> overflows w op a b flag ->
      step (n, E, K, M, k) (n', upd E (VInst n) (CAgg c flag), K, M, k)
  | st_extract n n' E K M k agg i bin int z flag :
      code p n = IExtract agg i bin int -> In n' (succs p n) -> eval E agg = Some (CAgg z flag) ->
      step (n, E, K, M, k) (n', upd E (VInst n) (CInt (if Nat.eqb i 0 then z else flag)), K, M, k)
  | st_other n n' E K M k z :
      code p n = IOther -> In n' (succs p n) -> step (n, E, K, M, k) (n', upd E (VInst n) (CInt z), K, M, k)
  | st_call n E K M k fs args f sp E' :
      code p n = ICall fs args -> In f fs -> entry p f = Some sp -> length args = nparams p f ->
      (forall i a, nth_error args i = Some a -> eval E a <> None /\ E' (VArg f i) = eval E a) ->
      (forall x, (forall i, i < length args -> x <> VArg f i) -> E' x = None) ->
      step (n, E, K, M, k) (sp, E', (n, f, E) :: K, M, k)
  (** a function without a body returns any integer and may change the memory its
      arguments point to *)
  | st_extern n n' E K M k fs args f z M' :
      code p n = ICall fs args -> In f fs -> entry p f = None -> In n' (succs p n) ->
      (forall l, (forall a, In a args -> eval E a <> Some (CPtr l)) -> M' l = M l) ->
      step (n, E, K, M, k) (n', upd E (VInst n) (CInt z), K, M', k)
  | st_ret n n' E c f Ec K M k v x :
      code p n = IRet (Some v) -> In n' (succs p c) -> eval E v = Some x ->
      step (n, E, (c, f, Ec) :: K, M, k) (n', upd Ec (VInst c) x, K, M, k)
  | st_retvoid n n' E c f Ec K M k :
      code p n = IRet None -> In n' (succs p c) ->
      step (n, E, (c, f, Ec) :: K, M, k) (n', Ec, K, M, k).

  (** executions of the function main; its parameters have any integers *)
  Inductive exec (main : F) : conf -> Prop :=
  | ex_start sp E M : entry p main = Some sp ->
      (forall x c, E x = Some c -> exists i z, x = VArg main i /\ c = CInt z) ->
      (forall g z, In (g, z) (inits p) -> M (LGlob g) = CInt z) ->
      exec main (sp, E, [], M, 0)
  | ex_step c c' : exec main c -> step c c' -> exec main c'.

  (** *** programs *)
  Record prog_wf : Prop := {
    pw_nodes : forall n, In n (nodes p);
    pw_succ : forall n n', In n' (succs p n) -> fnOf p n' = fnOf p n;
    pw_entry : forall f sp, entry p f = Some sp -> fnOf p sp = f;
    pw_noentry : forall n n' f, In n' (succs p n) -> entry p f <> Some n'
  }.

  (** Integers the analysis follows: constants, loaded integers, results of
      operations and calls, parameters of functions other than main *)
  Definition numeric (main : F) (v : value) : Prop :=
    match v with
    | Const _ _ => True
    | Val (VInst n) =>
        match code p n with
        | ILoad _ _ | IBin _ _ _ _ _ | IExtract _ _ _ _ | ICall _ _ => isPtr p (VInst n) = false
        | _ => False
        end
    | Val (VArg f i) => f <> main /\ isPtr p (VArg f i) = false
    | _ => False
    end.
  (** Integer variables: a local variable, or a global one with an initial value *)
  Definition cell (v : value) : Prop :=
    match v with
    | Val (VInst n) => code p n = IAlloca true
    | Val (VGlob g) => In g (map fst (inits p))
    | _ => False
    end.
  (** the operations that the analysis computes as LLVM does *)
  Definition exactOp (w : Z) (nsw : bool) (op : opcode) : Prop :=
    (1 <= w <= 64)%Z /\
    match op with
    | Add | Sub | Mul => nsw = true \/ w = 64%Z
    | UDiv | URem => False
    | _ => True
    end.

  (** Programs without pointers other than the names of variables, without
      functions that have no body, without wrap-around, in which main does not
      use its parameters *)
  Definition simple (main : F) : Prop := forall n,
    match code p n with
    | IStore v q b int => cell q /\ b = q /\ int = true /\ numeric main v
    | ILoad q int => cell q /\ int = true
    | IBin w nsw op l r => exactOp w nsw op /\ numeric main l /\ numeric main r /\ l <> Val (VInst n) /\ r <> Val (VInst n)
    | IBinIntrin w op l r f => exactOp w false op /\ numeric main l /\ numeric main r /\ entry p f = None
    | IExtract agg i bin int =>
        i = 0 /\ bin = true /\ int = true /\
        match agg with Val (VInst m) => match code p m with IBinIntrin _ _ _ _ _ => True | _ => False end | _ => False end
    | ICall fs args =>
        fs <> [] /\ (forall f, In f fs -> entry p f <> None /\ nparams p f = length args /\ sret p f = false) /\
        (forall a, In a args -> numeric main a)
    | IRet (Some v) => numeric main v
    | _ => True
    end.
End Sem.
