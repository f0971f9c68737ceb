(** What ids should be: positions in the program. *)
From Coq Require Import String Ascii List Bool Arith ZArith.
From Verif Require Import Assoc IRDBModel.
Import ListNotations.
Open Scope nat_scope.

(** globals, instructions of the functions of the module, of those added later *)
Definition everything (m : irmodule) (added : list function) : list irvalue :=
  map Global (modGlobals m) ++ map Inst (flat_map fnInsts (modFuns m)) ++ map Inst (flat_map fnInsts added).
(** a history: the module is read, then functions are added *)
Definition history (pre : bool) (m : irmodule) (before : metadata) (added : list function) (d : irdb) : Prop :=
  fold_left (fun d f => insertFunction pre f d) added (construct pre m before) = d.
(** a value with an id: numbered, or a parameter of a function of the module as it is now *)
Inductive within (now : irmodule) (numbered : list irvalue) : irvalue -> Prop :=
| within_numbered v : In v numbered -> within now numbered v
| within_arg f n : In f (modFuns now) -> n < fnArgs f -> within now numbered (Arg (fnName f) n).

(** names without a dot that do not begin with a minus *)
Fixpoint hasDot (s : string) : Prop := match s with EmptyString => False | String c s' => c = "."%char \/ hasDot s' end.
Definition plainName (s : string) : Prop := ~ hasDot s /\ match s with String c _ => c <> "-"%char | EmptyString => True end.
