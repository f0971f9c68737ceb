(** Model of /repo/include/phasar/DataFlow/Mono/Solver/InterMonoSolver.h ("IM.h").

    The ICFG and the problem are parameters.  The two-level unordered_map
    Analysis is an association list of association lists, iterated in insertion
    order; the contexts visited by a loop over Analysis[Src] are those present
    when it starts.  (Inserting into the map that is iterated would be undefined
    behaviour; it needs an edge from a call site to itself.)  operator[] inserts
    mono_container_t{}.  Printing is not modelled. *)
From Coq Require Import List Bool Arith NArith.
From Verif Require Import Assoc CallStringModel.
Import ListNotations.

Section Inter.
  Context {Nd M F : Type} `{EqDec Nd} `{EqDec F}.

  (** InterMonoProblem.h *)
  Record problem := mkProblem {
    normalFlow : Nd -> M -> M;
    callFlow : Nd -> F -> M -> M;
    returnFlow : Nd -> F -> Nd -> Nd -> M -> M;     (* call site, callee, exit, return site *)
    callToRetFlow : Nd -> Nd -> list F -> M -> M;
    merge : M -> M -> M;
    equal_to : M -> M -> bool;
    allTop : M;
    emptyM : M;
    insertAll : M -> M -> M;
    initialSeeds : list (Nd * M) }.

  Record icfg := mkIcfg {
    functionOf : Nd -> F;
    allEdges : F -> list (Nd * Nd);      (* getAllControlFlowEdges *)
    succs : Nd -> list Nd;
    preds : Nd -> list Nd;
    isBranchTarget : Nd -> Nd -> bool;
    isCallSite : Nd -> bool;
    isExitInst : Nd -> bool;
    calleesOf : Nd -> list F;            (* getCalleesOfCallAt *)
    callersOf : F -> list Nd;
    startPoints : F -> list Nd;
    exitPoints : F -> list Nd;
    returnSites : Nd -> list Nd }.

  Context (K : N) (zero : Nd) (c : icfg) (P : problem).
  Definition ctx := list Nd.
  Definition row := list (ctx * M).
  Definition analysis := list (Nd * row).
  Definition rowOf (n : Nd) (A : analysis) : row := afindd [] n A.
  Definition get (n : Nd) (x : ctx) (A : analysis) : M := afindd (emptyM P) x (rowOf n A).
  Definition put (n : Nd) (x : ctx) (m : M) (A : analysis) : analysis := aset n (aset x m (rowOf n A)) A.
  Definition touch (n : Nd) (x : ctx) (A : analysis) : analysis :=
    match afind x (rowOf n A) with Some _ => A | None => put n x (emptyM P) A end.

  Record state := mkState { tab : analysis; worklist : list (Nd * Nd); added : list F }.

  (** IM.h:56-64, 109-120 *)
  Definition initEdges (es : list (Nd * Nd)) (A : analysis) : analysis :=
    let A := fold_left (fun A e => put (fst e) [] (allTop P) A) es A in
    match rev es with [] => A | e :: _ => put (snd e) [] (allTop P) A end.
  (** IM.h:49-70 *)
  Definition addSeed (s : state) (sd : Nd * M) : state :=
    let es := allEdges c (functionOf c (fst sd)) in
    let A := initEdges es (tab s) in
    mkState (put (fst sd) [] (insertAll P (get (fst sd) [] A) (snd sd)) A) (es ++ worklist s) (added s).
  Definition initialize : state := fold_left addSeed (initialSeeds P) (mkState [] [] []).

  Definition isIntraEdge (s d : Nd) : bool := eqb (functionOf c s) (functionOf c d).

  (** IM.h:92-127; the first callee already added ends the loop *)
  Definition addCallee (src : Nd) (s : state) (f : F) : state :=
    let es := allEdges c f in
    mkState (initEdges es (tab s))
      (es ++ worklist s ++ map (pair src) (startPoints c f) ++ flat_map (fun e => map (pair e) (returnSites c src)) (exitPoints c f))
      (added s ++ [f]).
  Fixpoint addCallees (src : Nd) (fs : list F) (s : state) : state :=
    match fs with
    | [] => s
    | f :: fs' => if mem f (added s) then s else addCallees src fs' (addCallee src s f)
    end.

  (** addToWorklist, IM.h:129-153 *)
  Definition again (s d : Nd) : list (Nd * Nd) :=
    (s, d) :: map (pair d) (succs c d)
    ++ (if isCallSite c d then flat_map (fun f => map (pair d) (startPoints c f)) (calleesOf c d) else [])
    ++ (if isExitInst c d then flat_map (fun cs => map (pair d) (succs c cs)) (callersOf c (functionOf c d)) else []).
  (** IM.h:201-214, 235-253, 268-279: compare, overwrite and start over *)
  Definition update (s d : Nd) (x : ctx) (out : M) (st : state) : state :=
    let A := touch d x (tab st) in
    if equal_to P out (get d x A) then mkState A (worklist st) (added st)
    else mkState (put d x out A) (worklist st ++ again s d) (added st).

  (** IM.h:175-217 *)
  Definition normalOut (A : analysis) (s d : Nd) (x : ctx) : M * analysis :=
    let out := normalFlow P s (get s x A) in
    if isBranchTarget c s d then
      fold_left (fun '(o, A) p => if eqb p s then (o, A)
                                  else (merge P o (normalFlow P p (get p x A)), touch p x A)) (preds c d) (out, A)
    else (out, A).
  Definition processNormal (s d : Nd) (st : state) : state :=
    fold_left (fun st x => let '(out, A) := normalOut (tab st) s d x in
                           update s d x out (mkState A (worklist st) (added st)))
      (akeys (rowOf s (tab st))) st.
  (** IM.h:219-281 *)
  Definition processCall (s d : Nd) (st : state) : state :=
    if isIntraEdge s d then
      fold_left (fun st x => update s d x (callToRetFlow P s d (calleesOf c s) (get s x (tab st))) st) (akeys (rowOf s (tab st))) st
    else
      fold_left (fun st x => update s d (push_back K s x) (callFlow P s (functionOf c d) (get s x (tab st))) st)
        (akeys (rowOf s (tab st))) st.
  (** IM.h:283-345; [outs] is Out, which lives as long as the loop *)
  Definition exitCtx (s d : Nd) (acc : row * state) (x : ctx) : row * state :=
    let '(outs, st) := acc in
    let '(sites, x') := match x with
                        | [] => (callersOf c (functionOf c s), [])
                        | _ => let '(cs, x') := pop_back zero x in ([cs], x')
                        end in
    let rets := fold_left (fun l cs => fold_left (fun l r => sinsert r l) (returnSites c cs) l) sites [] in
    let out := fold_left (fun o cs => insertAll P o (returnFlow P cs (functionOf c s) s d (get s x (tab st)))) sites
                 (afindd (emptyM P) x' outs) in
    let st := fold_left (fun st r =>
        let A := touch r x' (tab st) in
        if equal_to P out (get r x' A) then mkState A (worklist st) (added st)
        else let m := insertAll P (insertAll P (emptyM P) (get r x' A)) out in
             mkState (put d x' m (put r x' m A)) (worklist st) (added st)) rets st in
    (aset x' out outs, st).
  Definition processExit (s d : Nd) (st : state) : state :=
    snd (fold_left (exitCtx s d) (akeys (rowOf s (tab st))) ([], st)).

  (** solve, IM.h:358-380.  Looking at Analysis[Src] inserts an empty row *)
  Definition step (s d : Nd) (wl : list (Nd * Nd)) (st : state) : state :=
    let st := mkState (tab st) wl (added st) in
    if isCallSite c s then processCall s d (addCallees s (calleesOf c s) st)
    else if isExitInst c s then processExit s d st
    else processNormal s d st.
  (** [None]: out of fuel *)
  Fixpoint loop (fuel : nat) (st : state) : option state :=
    match worklist st with
    | [] => Some st
    | (s, d) :: wl => match fuel with 0 => None | S k => loop k (step s d wl st) end
    end.
  Definition solve (fuel : nat) : option state := loop fuel initialize.
  (** IM.h:382-388 *)
  Definition getResultsAt (n : Nd) (st : state) : M :=
    fold_left (fun m e => insertAll P m (snd e)) (rowOf n (tab st)) (emptyM P).
End Inter.
Arguments problem : clear implicits.
Arguments icfg : clear implicits.
