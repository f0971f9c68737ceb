(** Model of the flow functions shared by the LLVM analyses,
    /repo/include/phasar/PhasarLLVM/DataFlow/IfdsIde/LLVMFlowFunctions.h.

    llvm::Value* is a type V, a data-flow fact a type D.  The conversions the
    templates use are parameters.  Containers are lists whose order and
    duplicates carry no meaning.  Predicates passed by the client are pure. *)
From Coq Require Import List Bool Arith.
From Verif Require Import Assoc.
Import ListNotations.

(** What the mappers ask of the called function.  [cSret]: the first parameter
    has the sret attribute; [cVaLists]: the allocas of type
    [n x %struct.__va_list_tag], n > 0, in program order *)
Record callee (V : Type) := mkCallee {
  cDecl : bool; cParams : list V; cSret : bool; cVarArg : bool; cVaLists : list V }.
Arguments mkCallee {V}. Arguments cDecl {V}. Arguments cParams {V}.
Arguments cSret {V}. Arguments cVarArg {V}. Arguments cVaLists {V}.

Section Mappers.
  Context {V D : Type}.
  Variable isZero : D -> bool.         (* LLVMZeroValue::isLLVMZeroValue(Source) *)
  Variable isConstant : D -> bool.     (* llvm::isa<llvm::Constant>(Source) *)
  Variable is : V -> D -> bool.        (* Arg.get() == Source *)
  Variable mk : V -> D.                (* FactConstructor *)
  (** the state of Source after Res.insert(std::move(Source)) *)
  Variable moved : D -> D.

  (** mapFactsAlongsideCallSite, LLVMFlowFunctions.h:57-108 *)
  Definition alongside (propArgs : V -> bool) (propGlobals : bool) (args : list V) (d : D) : list D :=
    if isZero d then [d]
    else if isConstant d then if propGlobals then [d] else []
    else match find (fun a => is a d) args with
         | Some a => if propArgs a then [mk a] else []
         | None => [d]
         end.

  (** the two assertions, LLVMFlowFunctions.h:174-175 and 296-297 *)
  Definition arityOk (args : list V) (f : callee V) : bool :=
    (length (cParams f) <=? length args) && ((length args =? length (cParams f)) || cVarArg f).

  (** mapFactsToCallee, LLVMFlowFunctions.h:132-234; [None]: failed assertion *)
  Definition toCallee (propArg : V -> D -> bool) (propGlobals propZero : bool)
      (args : list V) (f : callee V) (d : D) : option (list D) :=
    if cDecl f then Some []
    else if negb (arityOk args f) then None
    else
      let keep := (propZero && isZero d) || (propGlobals && negb (isZero d) && isConstant d) in
      let src := if keep then moved d else d in
      let skip := match cParams f with [] => 0 | _ :: _ => if cSret f then 1 else 0 end in
      let ps := skipn skip (cParams f) in
      let as_ := skipn skip args in
      let rest := skipn (length ps) as_ in
      Some ((if keep then [d] else []) ++
            flat_map (fun pa : V * V => if propArg (snd pa) src then [mk (fst pa)] else []) (combine ps as_) ++
            (if existsb (fun a => propArg a src) rest then map mk (cVaLists f) else [])).

  (** mapFactsToCaller, LLVMFlowFunctions.h:255-360.  [ret]: the value returned by
      the exit instruction, if it is a ret with a value; [cs]: the call site *)
  Definition toCaller (propParam propRet : V -> D -> bool) (propGlobals propZero : bool)
      (post : list D -> list D) (args : list V) (f : callee V) (ret : option V) (cs : V) (d : D) : option (list D) :=
    if negb (arityOk args f) then None
    else
      let rest := skipn (length (cParams f)) args in
      Some (post (
        (if propZero && isZero d then [d] else if propGlobals && isConstant d then [d] else []) ++
        flat_map (fun pa : V * V => if propParam (fst pa) d then [mk (snd pa)] else []) (combine (cParams f) args) ++
        (if existsb (fun v => propParam v d) (cVaLists f) then map mk rest else []) ++
        match ret with Some r => if propRet r d then [mk cs] else [] | None => [] end)).
End Mappers.

Section Store.
  Context {V : Type} {EV : EqDec V}.
  (** strongUpdateStore with a predicate, LLVMFlowFunctions.h:373-432.  [ptr] is the
      pointer operand, [base] the pointer operand without pointer casts *)
  Definition strongUpdateIf (ptr base : V) (pred : V -> bool) (x : V) : list V :=
    if eqb base ptr then
      if eqb x ptr then [] else if pred x then [x; ptr] else [x]
    else
      if eqb x ptr || eqb x base then [] else if pred x then [x; ptr; base] else [x].
  (** strongUpdateStore, LLVMFlowFunctions.h:452-502 *)
  Definition strongUpdate (ptr base val : V) (x : V) : list V :=
    if eqb base ptr then
      if eqb x ptr then [] else if eqb x val then [x; ptr] else [x]
    else
      if eqb x ptr || eqb x base then [] else if eqb x val then [x; ptr; base] else [x].
End Store.
