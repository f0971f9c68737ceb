(** Model of the ids of instructions and global variables
    (include/phasar/PhasarLLVM/DB/LLVMProjectIRDB.h, below IRDB.h;
    lib/PhasarLLVM/DB/LLVMProjectIRDB.cpp, below IRDB.cpp; getMetaDataID and
    getNthFunctionArgument in lib/PhasarLLVM/Utils/LLVMShorthands.cpp, below LS.cpp).

    Values are pointers; a pointer says what it points to.  The metadata of the
    IR is a map next to the tables.

    Simplifications:
    - Counters are natural numbers; size_t is modulo 2^64 where it is
      subtracted, unsigned is below 2^32 where it is parsed.
    - Parsing of IR, the printing of ids as comments and slot trackers are left out.
    - Functions of a module have different names. *)
From Coq Require Import String Ascii List Bool Arith ZArith.
From Verif Require Import Assoc UtilitiesModel.
Import ListNotations.
Open Scope nat_scope.
#[global] Instance EqDec_irname : EqDec string := string_dec.

Inductive irvalue := Global (g : nat) | Inst (i : nat) | Arg (f : string) (n : nat) | Other (v : nat).
#[global] Instance EqDec_irvalue : EqDec irvalue.
Proof. intros x y. unfold EqDec in *. decide equality; solve [apply Nat.eq_dec | apply string_dec]. Defined.
Record function := mkFn { fnName : string; fnArgs : nat; fnInsts : list nat }.
Record irmodule := mkMod { modGlobals : list nat; modFuns : list function }.
Definition metadata : Type := list (irvalue * string).

(** the members IdToInst, InstToId, IdOffset (IRDB.h:163-165) *)
Record irdb := mkDB { idToInst : list irvalue; instToId : list (irvalue * nat); idOffset : nat; meta : metadata }.

(** std::to_string *)
Definition digitOfNat (d : nat) : ascii := ascii_of_nat (48 + d).
Fixpoint decimal (fuel n : nat) (acc : string) : string :=
  match fuel with
  | 0 => acc
  | S fuel => let acc := String (digitOfNat (n mod 10)) acc in if n / 10 =? 0 then acc else decimal fuel (n / 10) acc
  end.
Definition toString (n : nat) : string := decimal (S n) n EmptyString.

(** ** Numbering *)
(** DenseMap::try_emplace *)
Definition tryEmplace (v : irvalue) (id : nat) (m : list (irvalue * nat)) : list (irvalue * nat) :=
  match afind v m with Some _ => m | None => m ++ [(v, id)] end.
(** the bodies of the loops: IRDB.cpp:84-88, 93-97, 109-116, 122-129, 245-255 *)
Definition number (pre : bool) (acc : irdb * nat) (v : irvalue) : irdb * nat :=
  let (d, id) := acc in
  (mkDB (idToInst d ++ [v]) (tryEmplace v id (instToId d)) (idOffset d)
        (if pre then aset v (toString id) (meta d) else meta d), S id).
(** llvm::instructions *)
Definition instructions (f : function) : list irvalue := map Inst (fnInsts f).
(** initInstructionIds and preprocessModule ([pre]), IRDB.cpp:79-131 *)
Definition construct (pre : bool) (m : irmodule) (before : metadata) : irdb :=
  let (d, id) := fold_left (number pre) (map Global (modGlobals m)) (mkDB [] [] 0 before, 0) in
  let d := mkDB (idToInst d) (instToId d) id (meta d) in
  fst (fold_left (number pre) (flat_map instructions (modFuns m)) (d, id)).
(** insertFunction, IRDB.cpp:236-258 *)
Definition insertFunction (pre : bool) (f : function) (d : irdb) : irdb :=
  fst (fold_left (number pre) (instructions f) (d, length (idToInst d))).
(** the assertion at the end of each, lines 101, 131, 257 *)
Definition assertion (d : irdb) : bool := length (instToId d) =? length (idToInst d).

(** ** Lookup *)
(** getValueFromId, IRDB.h:93-95 *)
Definition getValueFromId (d : irdb) (id : nat) : option irvalue := nth_error (idToInst d) id.
(** getInstructionImpl, IRDB.h:133-139; [id] is below 2^64 *)
Inductive got := Null | Got (i : nat) | BadCast | OutOfRange.
Definition getInstruction (d : irdb) (id : Z) : got :=
  let size := Z.of_nat (length (idToInst d)) in
  let off := Z.of_nat (idOffset d) in
  if (((id - off) mod 2 ^ 64) <? ((size - off) mod 2 ^ 64))%Z
  then match nth_error (idToInst d) (Z.to_nat id) with Some (Inst i) => Got i | Some _ => BadCast | None => OutOfRange end
  else Null.
(** getInstructionIdImpl, IRDB.h:147-151; [None] is the failed assertion *)
Definition getInstructionId (d : irdb) (v : irvalue) : option nat := afind v (instToId d).
(** IRDB.h:123-125, 141-145 *)
Definition getNumInstructions (d : irdb) : nat := length (idToInst d) - idOffset d.
Definition getAllInstructions (d : irdb) : list irvalue := skipn (idOffset d) (idToInst d).

(** ** Ids as strings *)
(** getMetaDataID, LS.cpp:253-273 *)
Definition getMetaDataID (md : metadata) (v : irvalue) : string :=
  match v with
  | Inst _ | Global _ => match afind v md with Some s => s | None => "-1"%string end
  | Arg f n => append f (append "."%string (toString n))
  | Other _ => "-1"%string
  end.
(** LLVMValueIDLess, LS.cpp:275-280 *)
Definition valueIDLess (md : metadata) (l r : irvalue) : bool := stringIDLess false (getMetaDataID md l) (getMetaDataID md r).

(** std::from_chars for unsigned (ParseInt, IRDB.cpp:269-281): a prefix of digits *)
Definition parseInt (s : string) : option Z :=
  if startsDigit s then if (digitsVal s 0 <? 2 ^ 32)%Z then Some (digitsVal s 0) else None else None.
(** StringRef::find, slice, drop_front: before and after the first dot *)
Fixpoint splitDot (s : string) : option (string * string) :=
  match s with
  | EmptyString => None
  | String c s' =>
      if Ascii.eqb c "."%char then Some (EmptyString, s')
      else match splitDot s' with Some (a, b) => Some (String c a, b) | None => None end
  end.
Definition getFunction (m : irmodule) (name : string) : option function := find (fun f => String.eqb (fnName f) name) (modFuns m).
(** LS.cpp:286-293 *)
Definition getNthFunctionArgument (f : function) (n : Z) : option irvalue :=
  if (Z.of_nat (fnArgs f) <=? n)%Z then None else Some (Arg (fnName f) (Z.to_nat n)).
(** fromMetaDataId, IRDB.cpp:263-302 *)
Definition fromMetaDataId (m : irmodule) (d : irdb) (s : string) : option irvalue :=
  match s with
  | EmptyString => None
  | String c _ =>
      if Ascii.eqb c "-"%char then None
      else
        match splitDot s with
        | Some (fname, rest) =>
            match parseInt rest with
            | None => None
            | Some n => match getFunction m fname with Some f => getNthFunctionArgument f n | None => None end
            end
        | None =>
            match parseInt s with
            | Some n => getValueFromId d (Z.to_nat n)
            | None => None
            end
        end
  end.
