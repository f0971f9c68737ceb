(** What the programs of IRProgramModel.v do to the secure heap. *)
From Coq Require Import String List Bool.
From Verif Require Import Assoc IRProgramModel.
Import ListNotations.

(** never initialised, initialised, shut down *)
Inductive heap := Never | On | Off.

Section Sem.
  Context {N F : Type}.
  Variable p : prog N F.
  Variable name : F -> string.

  (** a function of the library has been called *)
  Definition effect (f : F) (h : heap) : heap :=
    if String.eqb (name f) "CRYPTO_secure_malloc_init" then On
    else if String.eqb (name f) "CRYPTO_secure_malloc_done" then match h with Never => Never | _ => Off end
    else h.

  (** pending calls, statement about to run, heap.  Branches go either way; calls go to
      any of the callees *)
  Definition conf := (list (N * F) * N * heap)%type.
  Inductive step : conf -> conf -> Prop :=
  | st_next K n n' h : calleesAt p n = [] -> (forall b fs a, code p n <> ICall b fs a) -> In n' (succs p n) -> step (K, n, h) (K, n', h)
  | st_extern K n n' f h : In f (calleesAt p n) -> entry p f = None -> In n' (succs p n) -> step (K, n, h) (K, n', effect f h)
  | st_call K n f sp h : In f (calleesAt p n) -> entry p f = Some sp -> step (K, n, h) ((n, f) :: K, sp, h)
  | st_ret K c f n n' v h : code p n = IRet v -> In n' (succs p c) -> step ((c, f) :: K, n, h) (K, n', h).
  Inductive exec (main : F) : conf -> Prop :=
  | ex_start sp : entry p main = Some sp -> exec main ([], sp, Never)
  | ex_step c c' : exec main c -> step c c' -> exec main c'.

  (** *** Histories
      Paths through the program with the calls of the two functions on the way, latest
      first.  A call may also be stepped over, whether or not its callee has a body or
      returns. *)
  Inductive event := Init | Done.
  Definition events (n : N) : list event :=
    match code p n with
    | ICall true (f :: _) _ =>
        if String.eqb (name f) "CRYPTO_secure_malloc_init" then [Init]
        else if String.eqb (name f) "CRYPTO_secure_malloc_done" then [Done] else []
    | _ => []
    end.
  Inductive path (main : F) : list (N * F) -> N -> list event -> Prop :=
  | pa_start sp : entry p main = Some sp -> path main [] sp []
  | pa_next K n n' tr : path main K n tr -> (forall b fs a, code p n <> ICall b fs a) -> In n' (succs p n) -> path main K n' tr
  | pa_over K n n' b fs a tr : path main K n tr -> code p n = ICall b fs a -> In n' (succs p n) -> path main K n' (events n ++ tr)
  | pa_call K n f sp tr : path main K n tr -> In f (calleesAt p n) -> entry p f = Some sp -> path main ((n, f) :: K) sp tr
  | pa_ret K c f n n' v tr : path main ((c, f) :: K) n tr -> code p n = IRet v -> In n' (succs p c) -> path main K n' tr.
  (** initialised and later shut down *)
  Definition shut (tr : list event) : Prop := exists a b c, tr = a ++ Done :: b ++ Init :: c.

  (** the two functions are called by name only; such a call has one callee *)
  Definition called_by_name : Prop := forall n f, In f (calleesAt p n) ->
    (name f = "CRYPTO_secure_malloc_init" \/ name f = "CRYPTO_secure_malloc_done")%string ->
    exists args, code p n = ICall true [f] args.
End Sem.
