(** Uses of uninitialised variables, independently of the analysis.  A mark is "not
    initialised" here: new variables and undef are marked, an operation with a marked
    operand has a marked result. *)
From Coq Require Import List Bool ZArith Arith.
From Verif Require Import Assoc IRProgramModel IRProgramSpec.
Import ListNotations.

Section Spec.
  Context {N F : Type} {EN : EqDec N} {EF : EqDec F}.
  Local Notation value := (value N F).
  Variable p : prog N F.

  (** functions without a body initialise the variables they get the addresses of *)
  Definition extInit (c : N) (f : F) (cs : list cval) (M : mem) (x : cval) (M' : mem) : Prop :=
    marked x = false /\
    forall l, ((exists m, In (PPtr l, m) cs) -> marked (M' l) = false) /\ ((forall m, ~ In (PPtr l, m) cs) -> M' l = M l).
  (** functions without a body do not write memory *)
  Definition extPure (c : N) (f : F) (cs : list cval) (M : mem) (x : cval) (M' : mem) : Prop :=
    marked x = false /\ M' = M.

  Definition runs (ext : N -> F -> list cval -> mem -> cval -> mem -> Prop) (main : F) (s : conf) : Prop :=
    exec p true true true ext main (fun _ => false) s.

  (** the instruction about to run loads from a variable without a value, or computes
      with a value that is not initialised; copies (store, cast, phi, gep, arguments
      and return values) are no uses *)
  Definition usesUninit (n : N) (E : env) (M : mem) (v : value) : Prop :=
    In v (operands p n) /\
    match code p n with
    | ILoad _ => (exists pl, eval true E v = Some (pl, true)) \/ exists l m, eval true E v = Some (PPtr l, m) /\ marked (M l) = true
    | IOp _ | IExtract _ | IInsert _ _ => exists pl, eval true E v = Some (pl, true)
    | _ => False
    end.

  (** variables: allocas and parameters of pointer type *)
  Definition var (v : value) : bool :=
    match v with
    | VInst n => match code p n with IAlloca _ => true | _ => false end
    | VArg _ _ => isPtr p v
    | _ => false
    end.

  (** No structs; loads and stores only name variables, globals get constants only;
      addresses of different variables are passed to functions called by their name *)
  Definition simple : Prop := forall n,
    match code p n with
    | IAlloca b => b = true
    | IStore v q => var q = true \/ exists g k, q = VGlob g /\ v = VConst k
    | ILoad q => var q = true \/ exists g, q = VGlob g
    | ICall direct fs args =>
        (forall f, In f fs -> entry p f <> None ->
           nparams p f = length args /\
           forall i a, nth_error args i = Some a -> var a = isPtr p (VArg f i) /\ a <> VUndef) /\
        (forall a, In a args -> match a with VInst _ | VArg _ _ => isPtr p a = var a | _ => True end) /\
        (forall i j a, nth_error args i = Some a -> nth_error args j = Some a -> var a = true -> i = j) /\
        ((exists a, In a args /\ var a = true) -> direct = true /\ exists f, fs = [f])
    | IRet v => v <> Some VUndef
    | _ => True
    end.
End Spec.
