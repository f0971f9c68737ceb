(** Model of /repo/include/phasar/DataFlow/Mono/Solver/IntraMonoSolver.h ("IM.h").

    The CFG and the problem are parameters.  Analysis, an unordered_map, is an
    association list; reading a missing entry with operator[] inserts
    mono_container_t{}.  Printing is not modelled. *)
From Coq Require Import List Bool Arith.
From Verif Require Import Assoc.
Import ListNotations.

Section Intra.
  Context {Nd M F : Type} `{EqDec Nd}.

  (** IntraMonoProblem.h:63-86 *)
  Record problem := mkProblem {
    normalFlow : Nd -> M -> M;
    merge : M -> M -> M;
    equal_to : M -> M -> bool;
    allTop : M;
    emptyM : M;                        (* mono_container_t{} *)
    insertAll : M -> M -> M;           (* container.insert(Facts.begin(), Facts.end()) *)
    initialSeeds : list (Nd * M);      (* an unordered_map: keys differ *)
    entryPoints : list F }.            (* their definitions; all exist *)

  (** the part of the CFG the solver uses, LLVMBasedCFG.cpp:35-124, 203-214 *)
  Record cfg := mkCfg {
    instructions : F -> list Nd;       (* getAllInstructionsOf *)
    nodes : F -> list Nd;              (* those getAllControlFlowEdges starts from *)
    succs : Nd -> list Nd;
    preds : Nd -> list Nd;
    isBranchTarget : Nd -> Nd -> bool }.
  Definition allEdges (c : cfg) (f : F) : list (Nd * Nd) :=
    flat_map (fun n => map (pair n) (succs c n)) (nodes c f).

  Context (c : cfg) (P : problem).
  Definition analysis := list (Nd * M).
  Definition get (n : Nd) (A : analysis) : M := afindd (emptyM P) n A.
  Definition touch (n : Nd) (A : analysis) : analysis :=
    match afind n A with Some _ => A | None => aset n (emptyM P) A end.
  (** unordered_map::insert keeps an existing entry *)
  Definition insertNew (x : M) (A : analysis) (n : Nd) : analysis :=
    match afind n A with Some _ => A | None => aset n x A end.

  Record state := mkState { tab : analysis; worklist : list (Nd * Nd) }.

  (** initialize, IM.h:48-67 *)
  Definition addEntry (s : state) (f : F) : state :=
    mkState (fold_left (insertNew (allTop P)) (instructions c f) (tab s)) (allEdges c f ++ worklist s).
  Definition addSeed (A : analysis) (sd : Nd * M) : analysis :=
    aset (fst sd) (insertAll P (get (fst sd) A) (snd sd)) A.
  Definition initialize : state :=
    let s := fold_left addEntry (entryPoints P) (mkState [] []) in
    mkState (fold_left addSeed (initialSeeds P) (tab s)) (worklist s).

  (** the loop body, IM.h:79-107 *)
  Definition outOf (A : analysis) (p : Nd) : M := normalFlow P p (get p A).
  Definition outFor (A : analysis) (s d : Nd) : M :=
    if isBranchTarget c s d then
      fold_left (fun o p => if eqb p s then o else merge P o (outOf A p)) (preds c d) (outOf A s)
    else outOf A s.
  Definition touched (A : analysis) (s d : Nd) : analysis :=
    touch d (if isBranchTarget c s d then
               fold_left (fun A p => if eqb p s then A else touch p A) (preds c d) (touch s A)
             else touch s A).
  Definition step (A : analysis) (s d : Nd) (wl : list (Nd * Nd)) : state :=
    let out := outFor A s d in
    let A := touched A s d in
    if equal_to P out (get d A) then mkState A wl
    else mkState (aset d out A) (wl ++ map (pair d) (succs c d)).
  (** [None]: out of fuel *)
  Fixpoint loop (fuel : nat) (s : state) : option analysis :=
    match worklist s with
    | [] => Some (tab s)
    | (a, b) :: wl => match fuel with 0 => None | S k => loop k (step (tab s) a b wl) end
    end.

  (** solve, IM.h:74-115 *)
  Definition solve (fuel : nat) : option analysis :=
    option_map (map (fun e => (fst e, normalFlow P (fst e) (snd e)))) (loop fuel initialize).
  (** IM.h:117 *)
  Definition getResultsAt (n : Nd) (A : analysis) : M := get n A.
End Intra.
Arguments problem : clear implicits.
Arguments cfg : clear implicits.
