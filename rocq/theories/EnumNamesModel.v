(** Model of the names of the enumerations:
    /repo/lib/Utils/Soundness.cpp, lib/ControlFlow/CallGraphAnalysisType.cpp,
    lib/Pointer/AliasAnalysisType.cpp, lib/PhasarLLVM/Utils/DataFlowAnalysisType.cpp,
    lib/AnalysisStrategy/Strategies.cpp, lib/ControlFlow/SpecialMemberFunctionType.cpp,
    lib/Pointer/AliasResult.cpp and lib/Utils/Logger.cpp with the .def files they include.

    A .def file is the list of its entries (name and command-line flag).  The value [Val i] is
    the enumerator of entry [i], [Other] the one that is not in the file (Invalid, None). *)
From Coq Require Import String List Bool Arith.
Import ListNotations.
Local Open Scope string_scope.

Inductive value := Val (i : nat) | Other.
Definition entries := list (string * string).

(** llvm::StringSwitch: the first case that matches *)
Fixpoint stringSwitch (cases : list (string * value)) (dflt : value) (s : string) : value :=
  match cases with
  | [] => dflt
  | (c, v) :: cases' => if String.eqb c s then v else stringSwitch cases' dflt s
  end.
(** the cases that a .def file expands to, from entry [i] on *)
Fixpoint casesOf (sel : string * string -> string) (i : nat) (T : entries) : list (string * value) :=
  match T with
  | [] => []
  | e :: T' => (sel e, Val i) :: casesOf sel (S i) T'
  end.

(** toString, Soundness.cpp:15-25, CallGraphAnalysisType.cpp:15-24, AliasAnalysisType.cpp:6-16,
    DataFlowAnalysisType.cpp:16-27, Strategies.cpp:17-27; [d]: the name of [Other] *)
Definition toString (T : entries) (d : string) (v : value) : string :=
  match v with
  | Val i => match nth_error T i with Some e => fst e | None => d end
  | Other => d
  end.
(** toSoundness, Soundness.cpp:27-39, and in the same way CallGraphAnalysisType.cpp:26-40,
    AliasAnalysisType.cpp:18-32, DataFlowAnalysisType.cpp:29-43, Strategies.cpp:29-43 *)
Definition fromString (T : entries) (s : string) : value :=
  match stringSwitch (casesOf fst 0 T) Other s with
  | Other => stringSwitch (casesOf snd 0 T) Other s
  | v => v
  end.

(** Soundness.def *)
Definition soundness : entries := [("Sound", "sound"); ("Soundy", "soundy"); ("Unsound", "unsound")].
(** CallGraphAnalysisType.def *)
Definition callGraph : entries :=
  [("NORESOLVE", "nores"); ("CHA", "cha"); ("RTA", "rta"); ("DTA", "dta"); ("VTA", "vta"); ("OTF", "otf")].
(** AliasAnalysisType.def *)
Definition aliasAnalysis : entries :=
  [("Basic", "basic"); ("CFLSteens", "cflsteens"); ("CFLAnders", "cflanders"); ("PointsTo", "points-to")].
(** DataFlowAnalysisType.def *)
Definition dataFlow : entries :=
  [("IFDSUninitializedVariables", "ifds-uninit"); ("IFDSConstAnalysis", "ifds-const");
   ("IFDSTaintAnalysis", "ifds-taint"); ("IDEExtendedTaintAnalysis", "ide-xtaint");
   ("IFDSTypeAnalysis", "ifds-type"); ("IDECSTDIOTypeStateAnalysis", "ide-stdio-ts");
   ("IDEOpenSSLTypeStateAnalysis", "ide-openssl-ts"); ("IFDSSolverTest", "ifds-solvertest");
   ("IDELinearConstantAnalysis", "ide-lca"); ("IDESolverTest", "ide-solvertest");
   ("IDEInstInteractionAnalysis", "ide-iia"); ("IntraMonoFullConstantPropagation", "intra-mono-fca");
   ("IntraMonoSolverTest", "intra-mono-solvertest"); ("InterMonoSolverTest", "inter-mono-solvertest");
   ("InterMonoTaintAnalysis", "inter-mono-taint")].
(** Strategies.def *)
Definition strategies : entries :=
  [("WholeProgram", "WPA"); ("DemandDriven", "DD"); ("Incremental", "INC"); ("ModuleWise", "MWA");
   ("Variational", "VAR")].

(** SpecialMemberFunctionType.def: entry 0 is the default *)
Definition special : entries :=
  [("None", ""); ("Constructor", ""); ("Destructor", ""); ("CopyConstructor", "");
   ("MoveConstructor", ""); ("CopyAssignment", ""); ("MoveAssignment", "")].
(** toString, SpecialMemberFunctionType.cpp:15-24; values outside fall to the first case *)
Definition specialToString (v : value) : string := toString special "None" v.
(** toSpecialMemberFunctionType, SpecialMemberFunctionType.cpp:26-35 *)
Definition toSpecial (s : string) : value := stringSwitch (casesOf fst 0 special) (Val 0) s.

(** AliasResult.def *)
Definition aliasResult : entries := [("NoAlias", ""); ("MayAlias", ""); ("PartialAlias", ""); ("MustAlias", "")].
(** toString, AliasResult.cpp:18-27 *)
Definition aliasToString (v : value) : string := toString aliasResult "" v.
(** toAliasResult, AliasResult.cpp:29-33: the .def file is not included, there are no cases *)
Definition toAliasResult (s : string) : value := stringSwitch [] (Val 1) s.

(** SeverityLevel.def *)
Definition severity : entries :=
  [("DEBUG", ""); ("DFADEBUG", ""); ("INFO", ""); ("WARNING", ""); ("ERROR", ""); ("CRITICAL", "")].
(** to_string, Logger.cpp:36-45: the default label is that of the first case *)
Definition severityToString (v : value) : string := toString severity "DEBUG" v.
(** parseSeverityLevel, Logger.cpp:29-34 *)
Definition parseSeverity (s : string) : value := stringSwitch (casesOf fst 0 severity) Other s.
