(** Model of the taint configuration
    (lib/PhasarLLVM/TaintConfig/TaintConfigBase.cpp, below TB.cpp;
    lib/PhasarLLVM/TaintConfig/LLVMTaintConfig.cpp, below TC.cpp;
    lib/PhasarLLVM/Utils/Annotation.cpp, below AN.cpp).

    Functions are named by strings, instructions by numbers.

    Simplifications:
    - Sets are lists whose order and duplicates carry no meaning.
    - A JSON document is given by the fields that are read; a number is a natural
      number.  The schema leaves the elements of the arrays unchecked.
    - The operands of a call are its arguments and then the callee; operand
      bundles are left out.
    - Messages are left out, except where writing them dereferences a pointer.
    - Failing assertions, dereferenced null pointers and exceptions are [None]. *)
From Coq Require Import String Ascii List Bool Arith.
From Verif Require Import Assoc.
Import ListNotations.
#[local] Instance EqDec_tcname : EqDec string := string_dec.

(** ** Categories *)
Inductive cat := CNone | CSource | CSink | CSanitizer.
(** TB.cpp:16-29 *)
Definition to_string (c : cat) : string :=
  match c with CSource => "Source" | CSink => "Sink" | CSanitizer => "Sanitizer" | CNone => "None" end%string.
(** StringSwitch::CaseLower: equals_insensitive *)
Definition lower (a : ascii) : ascii :=
  let n := nat_of_ascii a in if (65 <=? n) && (n <=? 90) then ascii_of_nat (n + 32) else a.
Fixpoint lowers (s : string) : string := match s with EmptyString => EmptyString | String a s' => String (lower a) (lowers s') end.
Definition caseLower (s c : string) : bool := String.eqb (lowers s) (lowers c).
(** TB.cpp:31-37 *)
Definition toTaintCategory (s : string) : cat :=
  if caseLower s "source" then CSource else if caseLower s "sink" then CSink
  else if caseLower s "sanitizer" then CSanitizer else CNone.

(** ** Reading the configuration *)
Inductive jv := JNum (n : nat) | JStr (s : string).
Record jparams := mkJP { jSource : option (list jv); jSink : option (list jv); jSanitizer : option (list jv) }.
Record jfunc := mkJF { jfName : option jv; jfRet : option jv; jfParams : option jparams }.
Record jvar := mkJV { jvLine : option jv; jvName : option jv; jvScope : option jv; jvCat : option jv }.
Record FunctionData := mkFD {
  fdName : string; fdRet : cat; fdSource : list nat; fdSink : list nat; fdSanitizer : list nat; fdAllSink : bool }.
Record VariableData := mkVD { vdLine : nat; vdName : string; vdScope : string; vdCat : cat }.
(** get<std::string>, get<uint32_t> *)
Definition getStr (j : jv) : option string := match j with JStr s => Some s | JNum _ => None end.
Definition getNum (j : jv) : option nat := match j with JNum n => Some n | JStr _ => None end.
Fixpoint getNums (l : list jv) : option (list nat) :=
  match l with
  | [] => Some []
  | j :: l' => match getNum j, getNums l' with Some n, Some ns => Some (n :: ns) | _, _ => None end
  end.
(** the sinks, TB.cpp:68-81 *)
Fixpoint getSinks (l : list jv) : option (list nat * bool) :=
  match l with
  | [] => Some ([], false)
  | JNum n :: l' => match getSinks l' with Some (ns, b) => Some (n :: ns, b) | None => None end
  | JStr s :: l' =>
      if String.eqb s "all" then match getSinks l' with Some (ns, _) => Some (ns, true) | None => None end else None
  end.
(** a field that is not there leaves the default *)
Definition field {A B} (f : option A) (get : A -> option B) (default : B) : option B :=
  match f with None => Some default | Some x => get x end.
Definition getCat (j : jv) : option cat :=
  match getStr j with None => None | Some s => match toTaintCategory s with CNone => None | c => Some c end end.
Definition present {A} (f : option A) : bool := match f with Some _ => true | None => false end.
Definition nonEmpty {A} (f : option (list A)) : bool := match f with Some (_ :: _) => true | _ => false end.
(** loadFunc, TB.cpp:39-97 *)
Definition loadFunc (j : jfunc) : option (option FunctionData) :=
  let ps := match jfParams j with Some ps => ps | None => mkJP None None None end in
  match field (jfName j) getStr ""%string, field (jfRet j) getCat CNone,
        field (jSource ps) getNums [], field (jSink ps) getSinks ([], false), field (jSanitizer ps) getNums [] with
  | Some n, Some r, Some so, Some (si, all), Some sa =>
      Some (if present (jfName j) || present (jfRet j) || nonEmpty (jSource ps) || nonEmpty (jSink ps) || nonEmpty (jSanitizer ps)
            then Some (mkFD n r so si sa all) else None)
  | _, _, _, _, _ => None
  end.
(** loadVar, TB.cpp:99-136 *)
Definition loadVar (j : jvar) : option (option VariableData) :=
  match field (jvLine j) getNum 0, field (jvName j) getStr ""%string, field (jvScope j) getStr ""%string, field (jvCat j) getCat CNone with
  | Some l, Some n, Some s, Some c =>
      Some (if present (jvLine j) || present (jvName j) || present (jvScope j) || present (jvCat j)
            then Some (mkVD l n s c) else None)
  | _, _, _, _ => None
  end.
(** loadFunctions, loadVariables, TB.cpp:138-166 *)
Fixpoint loadAll {A B} (load : A -> option (option B)) (l : list A) : option (list B) :=
  match l with
  | [] => Some []
  | j :: l' =>
      match load j, loadAll load l' with
      | Some (Some x), Some xs => Some (x :: xs)
      | Some None, Some xs => Some xs
      | _, _ => None
      end
  end.
(** parseTaintConfig, TB.cpp:168-186 *)
Definition parseTaintConfig (fs : option (list jfunc)) (vs : option (list jvar)) : option (list FunctionData * list VariableData) :=
  match field fs (loadAll loadFunc) [], field vs (loadAll loadVar) [] with
  | Some f, Some v => Some (f, v)
  | _, _ => None
  end.

(** ** The program *)
Inductive val := VInst (n : nat) | VArg (f : string) (i : nat) | VGlob (g : string) | VFun (f : string) | VOther (n : nat).
#[export] Instance EqDec_tcval : EqDec val.
Proof. intros x y. unfold EqDec in *. decide equality; try apply Nat.eq_dec; try apply string_dec. Defined.
Inductive kind :=
| KDeclare (var : string) (line : nat) (addr : val)   (* llvm.dbg.declare *)
| KGep (st : option nat) (name : string)              (* source element type, name of the instruction *)
| KCall | KOther.
Record inst := mkI { iId : nat; iKind : kind; iOps : list val }.
Record func := mkF { fnName : string; fnArgs : nat; fnInsts : list inst; fnStarts : list nat }.
Record subprogram := mkSub { sDistinct : bool; sName : string; sLinkage : string }.
Record modul := mkMod {
  mFuncs : list func;
  mSubs : list subprogram;
  mStructNames : list string;     (* names of the DW_TAG_structure_type *)
  mStructs : list nat;            (* getIdentifiedStructTypes *)
  mConstUsers : string -> list val  (* users of a function that are constants *)
}.
Definition getFunction (m : modul) (n : string) : option func := find (fun f => String.eqb (fnName f) n) (mFuncs m).
Definition allInsts (m : modul) : list inst := flat_map fnInsts (mFuncs m).
(** Function::users *)
Definition users (m : modul) (f : string) : list val :=
  map (fun i => VInst (iId i)) (filter (fun i => existsb (eqb (VFun f)) (iOps i)) (allInsts m)) ++ mConstUsers m f.

Record config := mkC { SourceValues : list val; SinkValues : list val; SanitizerValues : list val }.
Definition emptyConfig : config := mkC [] [] [].
(** addTaintCategory, TC.cpp:273-290 *)
Definition addCat (c : config) (v : val) (k : cat) : config :=
  match k with
  | CSource => mkC (v :: SourceValues c) (SinkValues c) (SanitizerValues c)
  | CSink => mkC (SourceValues c) (v :: SinkValues c) (SanitizerValues c)
  | CSanitizer => mkC (SourceValues c) (SinkValues c) (v :: SanitizerValues c)
  | CNone => c
  end.
Definition addCats (c : config) (vs : list val) (k : cat) : config := fold_left (fun c v => addCat c v k) vs c.

(** findAllFunctionDefs, TC.cpp:29-60; an element may be null *)
Definition findAllFunctionDefs (m : modul) (name : string) : option (list (option func)) :=
  let defs := map (fun s => getFunction m (sLinkage s))
                  (filter (fun s => sDistinct s && negb (String.eqb (sLinkage s) "") &&
                                    (String.eqb (sName s) name || String.eqb (sLinkage s) name)) (mSubs m)) in
  match defs with
  | [] => Some (match getFunction m name with Some f => [Some f] | None => [] end)
  | [_] => Some defs
  | _ => if forallb (fun f => match f with Some _ => true | None => false end) defs then Some defs else None
  end.
(** the parameters in range *)
Definition argsIn (f : func) (l : list nat) : list val := map (VArg (fnName f)) (filter (fun i => i <? fnArgs f) l).
(** addAllFunctions, TC.cpp:62-120 *)
Definition addFunction (m : modul) (c : option config) (d : FunctionData) : option config :=
  match c with
  | None => None
  | Some c =>
      match findAllFunctionDefs m (fdName d) with
      | None => None
      | Some [] => Some c
      | Some (None :: _) => None
      | Some (Some f :: _) =>
          let c := addCats c (argsIn f (fdSource d)) CSource in
          let c := addCats c (argsIn f (fdSink d)) CSink in
          let c := if fdAllSink d then addCats c (map (VArg (fnName f)) (seq 0 (fnArgs f))) CSink else c in
          let c := addCats c (argsIn f (fdSanitizer d)) CSanitizer in
          Some (addCats c (users m (fnName f)) (fdRet d))
      end
  end.
Definition addAllFunctions (m : modul) (c : config) (ds : list FunctionData) : option config :=
  fold_left (addFunction m) ds (Some c).

(** StructConfigMap, TC.cpp:130-150; insert keeps what is there *)
Definition emplace (k : nat) (v : string) (l : list (nat * string)) : list (nat * string) :=
  match afind k l with Some _ => l | None => l ++ [(k, v)] end.
Definition structConfigMap (m : modul) (vs : list VariableData) : list (nat * string) :=
  fold_left (fun map_ v =>
    fold_left (fun map_ name =>
      if String.eqb name (vdScope v) then fold_left (fun map_ st => emplace st (vdName v) map_) (mStructs m) map_ else map_)
      (mStructNames m) map_) vs [].
(** the body of the loops, TC.cpp:156-182 *)
Definition addInst (structs : list (nat * string)) (v : VariableData) (c : config) (i : inst) : config :=
  match iKind i with
  | KDeclare var line addr => if String.eqb var (vdName v) && (line =? vdLine v) then addCat c addr (vdCat v) else c
  | KGep (Some st) name =>
      match afind st structs with
      | Some var => if prefix var name then addCat c (VInst (iId i)) (vdCat v) else c
      | None => c
      end
  | _ => c
  end.
Definition addVariables (m : modul) (c : config) (vs : list VariableData) : config :=
  let structs := structConfigMap m vs in
  fold_left (fun c v => fold_left (addInst structs v) (allInsts m) c) vs c.
(** the constructor, TC.cpp:122-185 *)
Definition fromData (m : modul) (fs : list FunctionData) (vs : list VariableData) : option config :=
  match addAllFunctions m emptyConfig fs with Some c => Some (addVariables m c vs) | None => None end.

(** ** Annotations *)
(** the annotated operand: behind a bitcast, or as it is *)
Inductive annotated := Cast (v : val) | Plain (v : val).
Record annotations := mkA {
  aLocal : list (annotated * string);          (* calls of llvm.var.annotation, then of llvm.ptr.annotation *)
  aGlobal : list (option string * string);     (* llvm.global.annotations; None: not a function *)
  aStored : val -> list val                    (* what the stores that use a value store, in order of the users *)
}.
(** getOriginalValueOrOriginalArg, AN.cpp:83-101 *)
Definition isArg (v : val) : bool := match v with VArg _ _ => true | _ => false end.
Definition originalValue (a : annotations) (x : annotated) : option val :=
  match x with
  | Plain _ => None
  | Cast v => Some (match find isArg (aStored a v) with Some w => w | None => v end)
  end.
(** StringRef::substr(4) *)
Fixpoint drop (n : nat) (s : string) : string :=
  match n, s with 0, _ => s | S n', String _ s' => drop n' s' | S _, EmptyString => EmptyString end.
Definition addLocal (a : annotations) (c : option config) (x : annotated * string) : option config :=
  match c, originalValue a (fst x) with
  | Some c, Some v => Some (addCat c v (toTaintCategory (drop 4 (snd x))))
  | _, _ => None
  end.
Definition isCallUser (m : modul) (v : val) : bool :=
  match v with
  | VInst n => existsb (fun i => (iId i =? n) && match iKind i with KCall => true | _ => false end) (allInsts m)
  | _ => false
  end.
Definition addGlobal (m : modul) (c : option config) (x : option string * string) : option config :=
  match c, fst x with
  | Some c, Some f => Some (addCats c (filter (isCallUser m) (users m f)) (toTaintCategory (drop 4 (snd x))))
  | _, _ => None
  end.
(** the constructor, TC.cpp:187-249 *)
Definition fromAnnotations (m : modul) (a : annotations) : option config :=
  fold_left (addGlobal m) (aGlobal a) (fold_left (addLocal a) (aLocal a) (Some emptyConfig)).

(** ** Queries *)
Definition isIn (v : val) (l : list val) : bool := existsb (eqb v) l.
Definition isSource (c : config) (v : val) : bool := isIn v (SourceValues c).
Definition isSink (c : config) (v : val) : bool := isIn v (SinkValues c).
Definition isSanitizer (c : config) (v : val) : bool := isIn v (SanitizerValues c).
Definition callback : Type := option (nat -> list val).
Definition called (cb : callback) (n : nat) : list val := match cb with Some f => f n | None => [] end.
(** Inst->getOperand of the marked parameters of the callee, TC.cpp:323-329 *)
Fixpoint actuals (i : inst) (marked : val -> bool) (args : list val) (k : nat) : option (list val) :=
  match args with
  | [] => Some []
  | a :: args' =>
      match (if marked a then match nth_error (iOps i) k with Some o => Some [o] | None => None end else Some []),
            actuals i marked args' (S k) with
      | Some x, Some xs => Some (x ++ xs)
      | _, _ => None
      end
  end.
Definition params (f : func) : list val := map (VArg (fnName f)) (seq 0 (fnArgs f)).
(** forAllGeneratedValuesAtImpl, TC.cpp:308-344 *)
Definition generated (c : config) (cb : callback) (i : inst) (callee : option func) : option (list val) :=
  match (match callee with
         | Some f => actuals i (isSource c) (params f) 0
         | None => Some (filter (isSource c) (iOps i))
         end) with
  | Some l => Some (called cb (iId i) ++ l ++ (if isSource c (VInst (iId i)) then [VInst (iId i)] else []))
  | None => None
  end.
(** forAllLeakCandidatesAtImpl, TC.cpp:346-371; forAllSanitizedValuesAtImpl, TC.cpp:373-392 *)
Definition candidates (marked : val -> bool) (cb : callback) (i : inst) (callee : option func) : option (list val) :=
  match (match callee with Some f => actuals i marked (params f) 0 | None => Some [] end) with
  | Some l => Some (called cb (iId i) ++ l)
  | None => None
  end.
Definition leakCandidates (c : config) := candidates (isSink c).
Definition sanitized (c : config) := candidates (isSanitizer c).
(** generatesValuesAtImpl, TC.cpp:394-412 *)
Definition generatesValuesAt (c : config) (cb : callback) (i : inst) (callee : option func) : bool :=
  match called cb (iId i) with [] => false | _ => true end ||
  match callee with Some f => existsb (isSource c) (params f) | None => false end ||
  isSource c (VInst (iId i)) || existsb (isSource c) (iOps i).
(** mayLeakValuesAtImpl, TC.cpp:414-426; sanitizesValuesAtImpl, TC.cpp:428-440 *)
Definition anyCandidate (marked : val -> bool) (cb : callback) (i : inst) (callee : option func) : bool :=
  match called cb (iId i) with [] => false | _ => true end ||
  match callee with Some f => existsb marked (params f) | None => false end.
Definition mayLeakValuesAt (c : config) := anyCandidate (isSink c).
Definition sanitizesValuesAt (c : config) := anyCandidate (isSanitizer c).
(** getCategoryImpl, TC.cpp:442-453 *)
Definition getCategory (c : config) (v : val) : cat :=
  if isSource c v then CSource else if isSink c v then CSink else if isSanitizer c v then CSanitizer else CNone.
(** makeInitialSeedsImpl, TC.cpp:455-472 *)
Definition isDeclaration (f : func) : bool := match fnInsts f with [] => true | _ => false end.
Definition initialSeeds (m : modul) (c : config) : list (nat * val) :=
  flat_map (fun v => match v with
                     | VInst n => [(n, v)]
                     | VArg f _ =>
                         match getFunction m f with
                         | Some fn => if isDeclaration fn then [] else map (fun n => (n, v)) (fnStarts fn)
                         | None => []
                         end
                     | _ => []
                     end) (SourceValues c).
