(** What should happen when a program is started: the calls made. *)
From Coq Require Import String List Bool Arith Sorted.
From Verif Require Import Assoc GlobalModelModel.
Import ListNotations.

(** ** Executions of the functions made *)
(** a call of a function of the program *)
Definition event : Type := string * list argument.
(** [exec F sel bs l t]: the instructions [l] of a function with blocks [bs]
    make the calls [t]; the selector of entry points returns [sel] *)
Inductive exec (F : functions) (sel : nat) : list block -> block -> list event -> Prop :=
| x_ret bs l : exec F sel bs (IRet :: l) []
| x_program bs f args l t : blocksOf F f = [] -> f <> UserEntrySelectorName ->
    exec F sel bs l t -> exec F sel bs (ICall f args :: l) ((f, args) :: t)
| x_selector bs args l t : exec F sel bs l t -> exec F sel bs (ICall UserEntrySelectorName args :: l) t
| x_made bs f args l b bs' t1 t2 : blocksOf F f = b :: bs' -> f <> UserEntrySelectorName ->
    exec F sel (b :: bs') b t1 -> exec F sel bs l t2 -> exec F sel bs (ICall f args :: l) (t1 ++ t2)
| x_br bs n b l t : nth_error bs n = Some b -> exec F sel bs b t -> exec F sel bs (IBr n :: l) t
| x_switch bs cs d l n b t : match afind sel cs with Some k => k | None => d end = n ->
    nth_error bs n = Some b -> exec F sel bs b t -> exec F sel bs (ISwitch cs d :: l) t.
Definition execution (F : functions) (sel : nat) (f : string) (t : list event) : Prop :=
  exists b bs, blocksOf F f = b :: bs /\ exec F sel (b :: bs) b t.

(** ** Order of constructors and destructors *)
(** what llvm.global_ctors / llvm.global_dtors list *)
Definition listed (l : list desc) : list (nat * string) :=
  flat_map (fun d => match d with Struct (Some p) (Some f) => [(p, f)] | _ => [] end) l.
(** the same elements in an order, those of equal priority as they were *)
Definition inOrder (before : nat -> nat -> Prop) (l l' : list (nat * string)) : Prop :=
  (forall k, filter (fun x => fst x =? k) l' = filter (fun x => fst x =? k) l) /\
  StronglySorted (fun x y => ~ before (fst y) (fst x)) l'.
Definition callsOf (l : list (nat * string)) : list event := map (fun x => (snd x, [])) l.

(** registered destructors: those of globals, and those of local statics, which
    are registered in other functions *)
Definition inInitializer (caller : string) : Prop := exists a b, caller = append a (append "__cxx_global_var_init" b).
(** [registered m P l]: the registrations by functions of which [P] holds *)
Inductive registered (P : string -> Prop) : list user -> list (string * nat) -> Prop :=
| reg_nil : registered P [] []
| reg_take d o c us l : P c -> registered P us l -> registered P (Registers (Some d) o c :: us) ((d, o) :: l)
| reg_skip u us l : (forall d o c, u = Registers (Some d) o c -> ~ P c) -> registered P us l -> registered P (u :: us) l.
(** destructor calls for registrations, latest first *)
Definition destroys (m : module) (l : list (string * nat)) : list event :=
  flat_map (fun x => match mFit m (fst x) (snd x) with
                     | SameType => [(fst x, [Object (snd x)])]
                     | Castable => [(fst x, [CastObject (snd x)])]
                     | Incompatible => [] end) (rev l).

(** ** Programs *)
Definition made (m : module) (f : string) : Prop :=
  f = ModelName \/ f = DtorModelName \/ f = UserEntrySelectorName \/ f = append DtorsCallerName (append "." (mName m)).
(** the functions of the program are not those made, and have the parameters
    that constructors and destructors have *)
Definition wellFormed (m : module) (entries : list string) : Prop :=
  (forall p f, In (p, f) (listed (mCtors m)) -> ~ made m f /\ mArgs m f = 0) /\
  (forall p f, In (p, f) (listed (mDtors m)) -> ~ made m f /\ mArgs m f = 0) /\
  mArgs m (append DtorsCallerName (append "." (mName m))) = 0 /\
  (forall d o c, In (Registers (Some d) o c) (mUsers m) -> ~ made m d /\ mArgs m d = 1) /\
  (forall e, In e entries -> ~ made m e).
(** how the model calls an entry point *)
Inductive called (m : module) : string -> event -> Prop :=
| called_plain e : mArgs m e = 0 -> called m e (e, [])
| called_main : mArgs m "main" = 2 -> called m "main" ("main"%string, [Param 0; Param 1]).
(** the entry point that is selected *)
Definition selects (entries : list string) (sel : nat) (e : string) : Prop :=
  entries = [e] \/ (1 < length entries /\ nth_error entries sel = Some e).

(** ** Entry points *)
(** the definitions that the names [es] denote, in that order *)
Inductive denoted (fs : list fn) : list string -> list fn -> Prop :=
| den_nil : denoted fs [] []
| den_take e es f l : In f fs -> fName f = e -> fDecl f = false -> denoted fs es l -> denoted fs (e :: es) (f :: l)
| den_skip e es l : (forall f, In f fs -> fName f = e -> fDecl f = true) -> denoted fs es l -> denoted fs (e :: es) l.

(** ** The C runtime: functions registered with __cxa_atexit run first, in the
    reverse order of their registration, then llvm.global_dtors *)
Definition atExit (m : module) (registrations : list (string * nat)) (dtors : list (nat * string)) : list event :=
  destroys m registrations ++ callsOf dtors.
