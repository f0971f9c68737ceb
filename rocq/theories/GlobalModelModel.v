(** Model of the C runtime model: the function that calls the constructors of
    globals, the entry points and the destructors
    (lib/PhasarLLVM/ControlFlow/GlobalCtorsDtorsModel.cpp, below GM.cpp) and the
    choice of entry points (lib/PhasarLLVM/ControlFlow/EntryFunctionUtils.cpp,
    below EF.cpp).

    Functions are named by strings; the functions made here are lists of blocks,
    each block a list of instructions; the first block is the entry.  Blocks are
    numbered in the order of their creation.

    Simplifications:
    - The users of __cxa_atexit are a list, in the order of its use list.
    - Casts of an argument are part of the argument, not instructions.
    - Functions of the program have no body here.
    - IRDB.insertFunction is left out (C60); failing assertions are [None]. *)
From Coq Require Import String List Bool Arith.
From Verif Require Import Assoc.
Import ListNotations.
#[global] Instance EqDec_fname : EqDec string := string_dec.

(** an element of llvm.global_ctors / llvm.global_dtors: operands 0 and 1 *)
Inductive desc := NotStruct | Struct (prio : option nat) (fn : option string).
(** a user of __cxa_atexit: what is registered, and the calling function *)
Inductive user := NotCall | Registers (dtor : option string) (object : nat) (caller : string).
(** the type of the object, for a destructor *)
Inductive fit := SameType | Castable | Incompatible.
Record module := mkM {
  mCtors : list desc;
  mDtors : list desc;
  mUsers : list user;
  mArgs : string -> nat;          (* arg_size, getNumParams *)
  mFit : string -> nat -> fit;
  mName : string                  (* getReducedModuleName *)
}.

(** ** The functions made *)
Inductive argument := Param (i : nat) | Object (v : nat) | CastObject (v : nat).
Inductive instr :=
| ICall (f : string) (args : list argument)
| IRet
| IBr (b : nat)
| ISwitch (cases : list (nat * nat)) (default : nat)  (* on the result of the last call *)
| IUnreachable.
Definition block : Type := list instr.
Definition functions : Type := list (string * list block).
(** GM.h:24-34 *)
Definition ModelName : string := "__psrCRuntimeGlobalCtorsModel"%string.
Definition DtorModelName : string := "__psrCRuntimeGlobalDtorsModel"%string.
Definition DtorsCallerName : string := "__psrGlobalDtorsCaller"%string.
Definition UserEntrySelectorName : string := "__psrCRuntimeUserEntrySelector"%string.
(** the blocks of Module::getOrInsertFunction *)
Definition blocksOf (F : functions) (f : string) : list block := match afind f F with Some bs => bs | None => [] end.
Definition addBlocks (F : functions) (f : string) (bs : list block) : functions := aset f (blocksOf F f ++ bs) F.

(** ** std::multimap *)
(** emplace: after the elements of the same key *)
Fixpoint memplace (before : nat -> nat -> bool) (k : nat) (v : string) (l : list (nat * string)) : list (nat * string) :=
  match l with
  | [] => [(k, v)]
  | (k', v') :: l' => if before k k' then (k, v) :: l else (k', v') :: memplace before k v l'
  end.
Definition greater (a b : nat) : bool := b <? a.
(** insertGlobalCtorsDtorsImpl, GM.cpp:24-47 *)
Definition insertGlobals (before : nat -> nat -> bool) (into : list (nat * string)) (l : list desc) : list (nat * string) :=
  fold_left (fun into d => match d with Struct (Some p) (Some f) => memplace before p f into | _ => into end) l into.
(** GM.cpp:49-61 *)
Definition collectGlobalCtors (m : module) : list (nat * string) := insertGlobals Nat.ltb [] (mCtors m).
Definition collectGlobalDtors (m : module) : list (nat * string) := insertGlobals greater [] (mDtors m).

(** ** Registered destructors *)
(** StringRef::contains *)
Fixpoint contains (s sub : string) : bool :=
  prefix sub s || match s with EmptyString => false | String _ s' => contains s' sub end.
(** collectRegisteredDtorsForModule, GM.cpp:63-110 *)
Definition collectRegisteredDtorsForModule (m : module) : list (string * nat) :=
  let r := fold_left (fun acc u =>
    match u with
    | Registers (Some d) o caller =>
        if contains caller "__cxx_global_var_init"%string then ((fst acc ++ [(d, o)]), snd acc)
        else (fst acc, (snd acc ++ [(d, o)]))
    | _ => acc
    end) (mUsers m) ([], []) in
  (fst r ++ snd r).
(** createDtorCallerForModule, GM.cpp:121-161 *)
Definition dtorCallerName (m : module) : string := append DtorsCallerName (append "."%string (mName m)).
Fixpoint dtorCalls (m : module) (l : list (string * nat)) : option block :=
  match l with
  | [] => Some [IRet]
  | (d, o) :: l' =>
      if negb (mArgs m d =? 1) then None
      else
        match dtorCalls m l' with
        | None => None
        | Some b =>
            match mFit m d o with
            | SameType => Some (ICall d [Object o] :: b)
            | Castable => Some (ICall d [CastObject o] :: b)
            | Incompatible => Some b
            end
        end
  end.
Definition createDtorCallerForModule (m : module) (F : functions) (reg : list (string * nat)) : option functions :=
  match dtorCalls m (rev reg) with
  | Some b => Some (addBlocks F (dtorCallerName m) [b])
  | None => None
  end.
(** collectRegisteredDtors, GM.cpp:163-187 *)
Definition collectRegisteredDtors (m : module) (F : functions) (dtors : list (nat * string))
  : option (functions * list (nat * string)) :=
  match collectRegisteredDtorsForModule m with
  | [] => Some (F, dtors)
  | reg =>
      match createDtorCallerForModule m F reg with
      | Some F' => Some (F', memplace greater 0 (dtorCallerName m) dtors)
      | None => None
      end
  end.

(** calls of functions without parameters (asserted) *)
Fixpoint callAll (m : module) (l : list (nat * string)) : option block :=
  match l with
  | [] => Some []
  | (_, f) :: l' =>
      if negb (mArgs m f =? 0) then None
      else match callAll m l' with Some b => Some (ICall f [] :: b) | None => None end
  end.
(** buildCRuntimeGlobalDtorsModel, GM.cpp:189-219 *)
Definition buildDtorsModel (m : module) (F : functions) (dtors : list (nat * string)) : option (functions * string) :=
  match dtors with
  | [(_, f)] => Some (F, f)
  | _ =>
      match callAll m dtors with
      | Some b => Some (addBlocks F DtorModelName [(b ++ [IRet])], DtorModelName)
      | None => None
      end
  end.

(** CallUEntry, GM.cpp:267-301 *)
Definition callUEntry (m : module) (cleanup entry : string) : block :=
  ((match mArgs m entry with
    | 0 => [ICall entry []]
    | 2 => if String.eqb entry "main"%string then [ICall entry [Param 0; Param 1]] else []
    | _ => []
    end) ++ (if String.eqb entry "main"%string then [ICall cleanup []] else [])).
(** the blocks of the switch, GM.cpp:307-344; [n]: blocks that are there before *)
Definition switchBlocks (m : module) (cleanup : string) (n : nat) (entries : list string) : list block :=
  [IUnreachable] :: [IRet] :: map (fun e => (callUEntry m cleanup e ++ [IBr (n + 2)])) entries.
Definition cases (n : nat) (entries : list string) : list (nat * nat) :=
  map (fun i => (i, n + 3 + i)) (seq 0 (length entries)).
(** buildModel, GM.cpp:221-350 *)
Definition buildModel (m : module) (F : functions) (entries : list string) : option functions :=
  match collectRegisteredDtors m F (collectGlobalDtors m) with
  | None => None
  | Some (F1, dtors) =>
      match buildDtorsModel m F1 dtors, callAll m (collectGlobalCtors m) with
      | Some (F2, cleanup), Some cs =>
          let n := length (blocksOf F2 ModelName) in
          match entries with
          | [] => None
          | [e] => Some (addBlocks F2 ModelName [(cs ++ callUEntry m cleanup e ++ [IRet])])
          | _ =>
              Some (addBlocks F2 ModelName
                ((cs ++ [ICall UserEntrySelectorName []; ISwitch (cases n entries) (n + 1)]) :: switchBlocks m cleanup n entries))
          end
      | _, _ => None
      end
  end.
(** GM.cpp:359-371 *)
Definition isPhasarGenerated (name : string) : bool :=
  existsb (String.eqb name) [ModelName; DtorModelName; DtorsCallerName; UserEntrySelectorName].

(** ** Entry points *)
(** the functions of the IRDB *)
Record fn := mkF { fName : string; fDecl : bool; fExternal : bool }.
(** Module::getFunction *)
Definition getFunction (fs : list fn) (name : string) : option fn := find (fun f => String.eqb (fName f) name) fs.
(** LLVMProjectIRDB.cpp:177-185 *)
Definition getFunctionDefinition (fs : list fn) (name : string) : option fn :=
  match getFunction fs name with Some f => if fDecl f then None else Some f | None => None end.
(** EF.cpp:6-36, 38-68; all functions have names *)
Definition getEntryFunctions (fs : list fn) (entries : list string) : list fn :=
  if match entries with [e] => String.eqb e "__ALL__"%string | _ => false end
  then filter (fun f => negb (fDecl f) && (fExternal f || String.eqb (fName f) "main"%string)) fs
  else flat_map (fun e => match getFunctionDefinition fs e with Some f => [f] | None => [] end) entries.
