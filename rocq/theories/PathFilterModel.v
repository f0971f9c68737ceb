(** Model of /repo/lib/PhasarLLVM/DataFlow/PathSensitivity/Z3BasedPathSensitivityManager.cpp
    ("Z3.cpp") and of pathsTo in
    /repo/include/phasar/PhasarLLVM/DataFlow/PathSensitivity/Z3BasedPathSensitvityManager.h
    ("Z3.h"), with the paths of
    /repo/include/phasar/DataFlow/PathSensitivity/FlowPath.h ("FP.h").

    Graphs are those of PathDagModel.  A z3::expr is a formula over atomic
    constraints, which come from an arbitrary function for the edges of the
    program (LLVMPathConstraints; its tables only save work); simplify() keeps
    the formula.  The solver is an arbitrary answer "unsat" or not for the list
    of its assertions; that a model exists is recorded, the model itself is not.
    What is asked of instructions (call, return, the rest of the block, ...) are
    arbitrary functions.  SIZE_MAX as threshold is [None].
    Recursion has fuel.  Failed assertions, llvm_unreachable, reading a destroyed
    stack node and value() of an empty optional are [Undefined]; report_fatal_error
    is [Fatal].  Counters that are only logged are left out. *)
From Coq Require Import List Bool Arith.
From Verif Require Import Assoc DFAMinimizerModel ExplodedSuperGraphModel PathDagModel.
Import ListNotations.

Inductive res (A : Type) := NoFuel | Undefined | Fatal | Ok (a : A).
Arguments NoFuel {A}. Arguments Undefined {A}. Arguments Fatal {A}. Arguments Ok {A}.
Definition bind {A B} (r : res A) (f : A -> res B) : res B :=
  match r with NoFuel => NoFuel | Undefined => Undefined | Fatal => Fatal | Ok a => f a end.

Inductive form (A : Type) := FTrue | FFalse | FAtom (a : A) | FAnd (f g : form A) | FOr (f g : form A).
Arguments FTrue {A}. Arguments FFalse {A}. Arguments FAtom {A}. Arguments FAnd {A}. Arguments FOr {A}.

Section Filters.
  (** [N] instructions, [A] atomic constraints, [V] the values they talk about *)
  Context {N A V : Type} `{EqDec N} `{EqDec V}.

  (** LLVMPathConstraints::getConstraintAndVariablesFromEdge; getConstraintFromEdge is its first part *)
  Variable edgeConstraint : N -> N -> option (A * list V).
  (** z3::solver::check() == unsat *)
  Variable unsat : list (form A) -> bool.

  Definition tagOf (G : pgraph N) (v : nat) : list N := match node G v with Some l => l | None => [] end.

  (** ** filterOutUnreachableNodes, Z3.cpp:11-126 *)
  Definition conjEdge (x : form A) (from to : N) : form A :=
    match edgeConstraint from to with Some (c, _) => FAnd x (FAtom c) | None => x end.
  (** Z3.cpp:49-54, for the tags in the order of the program *)
  Fixpoint conjEdges (x : form A) (l : list N) : form A :=
    match l with
    | a :: ((b :: _) as l') => conjEdges (conjEdge x a b) l'
    | _ => x
    end.

  (** FilterContext, Z3.cpp:16-26, and RevDAG *)
  Record fstate := mkF { fg : pgraph N; visited : list nat; constrs : list (form A) }.
  (** AL.h (AdjacencyList.h):262-275 *)
  Definition removeEdge (G : pgraph N) (v i : nat) : pgraph N :=
    mkGraph (nodes G) (setAt v (removeAt i (outEdges G v)) (adj G)) (roots G).
  (** AL.h:281-292 *)
  Definition removeRoot (G : pgraph N) (i : nat) : pgraph N :=
    mkGraph (nodes G) (adj G) (removeAt i (roots G)).

  (** Z3.cpp:58-89: [i] is Iter, [n] the distance from it to the end; [pp] is
      PartialPath *)
  Fixpoint filterEdges (rec : nat -> fstate -> res (form A * fstate)) (add : list (form A)) (v : nat) (x : form A)
      (pp : list N) (n i : nat) (ys : list (form A)) (s : fstate) : res (list (form A) * fstate) :=
    match n with
    | 0 => Ok (ys, s)
    | S n' =>
        match nth_error (outEdges (fg s) v) i with
        | None => Undefined
        | Some e =>
            bind (if mem (snd e) (visited s) then Ok s else bind (rec (snd e) s) (fun r => Ok (snd r))) (fun s1 =>
            match hd_error pp, hd_error (rev (tagOf (fg s1) (snd e))) with
            | Some a, Some b =>
                let y := conjEdge (nth (snd e) (constrs s1) FTrue) a b in
                if unsat (add ++ [x; y])
                then filterEdges rec add v x pp n' i ys (mkF (removeEdge (fg s1) v i) (visited s1) (constrs s1))
                else filterEdges rec add v x pp n' (S i) (ys ++ [y]) s1
            | _, _ => Undefined
            end)
        end
    end.
  (** Z3.cpp:42-102; [add] is the AdditionalConstraint, if any *)
  Fixpoint doFilter (fuel : nat) (add : list (form A)) (leaf v : nat) (s : fstate) : res (form A * fstate) :=
    match fuel with
    | 0 => NoFuel
    | S f =>
        let pp := tagOf (fg s) v in
        if length pp =? 0 then Undefined
        else
          let x := conjEdges FTrue (rev pp) in
          bind (filterEdges (doFilter f add leaf) add v x pp (length (outEdges (fg s) v)) 0 []
                  (mkF (fg s) (v :: visited s) (constrs s))) (fun r =>
          let (ys, s1) := r in
          let done c := Ok (c, mkF (fg s1) (visited s1) (setAt v c (constrs s1))) in
          if length (outEdges (fg s1) v) =? 0 then done (if v =? leaf then x else FFalse)
          else match ys with
               | [] => Undefined
               | y :: ys' => done (FAnd x (fold_left FOr ys' y))
               end)
    end.
  (** Z3.cpp:106-117 *)
  Fixpoint filterRoots (fuel : nat) (add : list (form A)) (leaf : nat) (n i : nat) (ret : form A) (s : fstate)
    : res (form A * fstate) :=
    match n with
    | 0 => Ok (ret, s)
    | S n' =>
        match nth_error (roots (fg s)) i with
        | None => Undefined
        | Some rt =>
            bind (doFilter fuel add leaf rt s) (fun r =>
            let (c, s1) := r in
            if negb (rt =? leaf) && (length (outEdges (fg s1) rt) =? 0)
            then filterRoots fuel add leaf n' i (FOr ret c) (mkF (removeRoot (fg s1) i) (visited s1) (constrs s1))
            else filterRoots fuel add leaf n' (S i) (FOr ret c) s1)
        end
    end.
  Definition optList {B} (o : option B) : list B := match o with Some x => [x] | None => [] end.
  Definition filterOutUnreachableNodes (fuel : nat) (add : option (form A)) (leaf : nat) (G : pgraph N)
    : res (form A * pgraph N) :=
    bind (filterRoots fuel (optList add) leaf (length (roots G)) 0 FFalse (mkF G [] (repeat FTrue (size G)))) (fun r =>
    Ok (fst r, fg (snd r))).

  (** ** CallStackPathFilter, Z3.cpp:190-317 *)
  (** llvm::isa<CallBase>, ReturnInst or ResumeInst, isTerminator(), a call whose
      getCalledFunction() is there and not a declaration *)
  Variable isCall isRet isTerm definedCall : N -> bool.
  (** the instructions after one in its block; the first ones of the successors of its block *)
  Variable rest succFronts : N -> list N.

  (** isDirectSuccessorOf, Z3.cpp:261-288 *)
  Fixpoint scan (succ of : N) (l : list N) : bool :=
    match l with
    | [] => mem succ (succFronts of)
    | nxt :: l' =>
        if eqb nxt succ then true
        else if isTerm nxt then mem succ (succFronts nxt)
        else if definedCall nxt then false
        else scan succ nxt l'
    end.
  Definition isDirectSuccessorOf (succ of : N) : bool := scan succ of (rest of).

  (** Z3.cpp:307-316: a CallStackNode is its index in CallStackOwner *)
  Record cstate := mkCS { stackNodes : list (option nat * N); safe : list (nat * option nat); tos : option nat; valid : bool }.
  Definition emptyCS : cstate := mkCS [] [] None true.
  (** Z3.cpp:193-201 *)
  Definition csSave (s : cstate) : cstate := mkCS (stackNodes s) ((length (stackNodes s), tos s) :: safe s) (tos s) (valid s).
  Definition csRestore (s : cstate) : res cstate :=
    match safe s with
    | [] => Undefined
    | (n, t) :: sf => if n <=? length (stackNodes s) then Ok (mkCS (firstn n (stackNodes s)) sf t true) else Undefined
    end.
  (** Z3.cpp:290-295 *)
  Definition pushCS (s : cstate) (cs : N) : cstate :=
    mkCS (stackNodes s ++ [(tos s, cs)]) (safe s) (Some (length (stackNodes s))) (valid s).
  (** Z3.cpp:297-303, for the node TOS points to *)
  Definition popCS (s : cstate) (t : nat) : res (N * cstate) :=
    match nth_error (stackNodes s) t with
    | None => Undefined
    | Some (p, cs) => Ok (cs, mkCS (stackNodes s) (safe s) p (valid s))
    end.
  (** Z3.cpp:203-241 *)
  Definition csSaveEdge (s : cstate) (prev inst : N) : res cstate :=
    if negb (valid s) then Ok s
    else if isCall prev && negb (isDirectSuccessorOf inst prev) then Ok (pushCS s prev)
    else if isRet prev then
      match tos s with
      | None => Ok s
      | Some t =>
          bind (popCS s t) (fun r =>
          let (cs, s1) := r in
          Ok (mkCS (stackNodes s1) (safe s1) (tos s1) (isDirectSuccessorOf inst cs)))
      end
    else Ok s.
  (** Z3.cpp:243-256 *)
  Definition csSaveFinalEdge (s : cstate) (prev : option N) (final : N) : res (bool * cstate) :=
    if negb (valid s) then Ok (false, s)
    else match prev with
         | Some p =>
             if isRet p then
               match tos s with
               | None => Ok (true, s)
               | Some t => bind (popCS s t) (fun r => Ok (isDirectSuccessorOf final (fst r), snd r))
               end
             else Ok (true, s)
         | None => Ok (true, s)
         end.

  (** ** ConstraintPathFilter, Z3.cpp:319-454; the innermost scope of the solver is the first *)
  Record kstate := mkK { scopes : list (list (form A)); atoms : list V; numAtoms : list nat; locals : list V;
                         model : bool; need : bool }.
  Definition assertions (s : kstate) : list (form A) := concat (rev (scopes s)).
  (** Z3.cpp:323-330 *)
  Definition initK (add : form A) : kstate := mkK [[]; [add]] [] [0] [] false false.
  (** Z3.cpp:332-348 *)
  Definition kSave (s : kstate) : kstate :=
    mkK ([] :: scopes s) (atoms s) (hd 0 (numAtoms s) :: numAtoms s) (locals s) (model s) (need s).
  Definition kRestore (s : kstate) : kstate :=
    let diff := hd 0 (numAtoms s) - hd 0 (tl (numAtoms s)) in
    mkK (tl (scopes s)) (firstn (length (atoms s) - diff) (atoms s)) (tl (numAtoms s)) [] false false.
  Definition addAssertion (f : form A) (l : list (list (form A))) : list (list (form A)) :=
    match l with [] => [[f]] | x :: l' => (x ++ [f]) :: l' end.
  (** Z3.cpp:350-359 *)
  Definition kSaveEdge (s : kstate) (prev inst : N) : kstate :=
    match edgeConstraint prev inst with
    | None => s
    | Some (c, vs) => mkK (addAssertion (FAtom c) (scopes s)) (atoms s) (numAtoms s) (locals s ++ vs) (model s) (need s)
    end.
  (** Z3.cpp:423-440; [SymbolicAtoms] is a set vector *)
  Fixpoint uniq (l : list V) : list V :=
    match l with [] => [] | x :: l' => if mem x l' then uniq l' else x :: uniq l' end.
  Definition insertAtoms (ls at_ : list V) : list V := fold_left (fun acc x => if mem x acc then acc else acc ++ [x]) ls at_.
  Definition checkLocalAtomsOverlap (s : kstate) : bool * kstate :=
    if need s then (true, s)
    else
      let ls := uniq (locals s) in
      let at' := insertAtoms ls (atoms s) in
      (negb (length at' - length (atoms s) =? length ls),
       mkK (scopes s) at' (numAtoms s) [] (model s) (need s)).
  (** Z3.cpp:361-397 *)
  Definition kIsValid (s : kstate) : bool * kstate :=
    if (length (locals s) =? 0) && negb (need s) then (true, s)
    else
      let (o, s1) := checkLocalAtomsOverlap s in
      if negb o then (true, s1)
      else
        let r := negb (unsat (assertions s1)) in
        (r, mkK (scopes s1) (atoms s1) (numAtoms s1) (locals s1) (r || model s1) false).
  (** Z3.cpp:399-403 *)
  Definition kSaveFinalEdge (s : kstate) (prev final : N) : bool * kstate :=
    let s1 := kSaveEdge s prev final in
    kIsValid (mkK (scopes s1) (atoms s1) (numAtoms s1) (locals s1) (model s1) true).
  (** Z3.cpp:405-416 *)
  Definition getPathConstraints (s : kstate) : form A :=
    match assertions s with [] => FTrue | f :: l => fold_left FAnd l f end.

  (** ** filterAndFlattenRevDag, Z3.cpp:456-564 *)
  (** FlowPath, FP.h:19-29, without the model *)
  Definition flowPath : Type := list N * form A.
  Record trav := mkT { cs : cstate; ks : kstate; cur : list N; prev : option N; ret : list flowPath; completed : nat }.

  (** Z3.cpp:509-519 *)
  Fixpoint saveEdges (l : list N) (t : trav) : res trav :=
    match l with
    | [] => Ok t
    | i :: l' =>
        match prev t with
        | None => saveEdges l' (mkT (cs t) (ks t) (cur t ++ [i]) (Some i) (ret t) (completed t))
        | Some p =>
            bind (csSaveEdge (cs t) p i) (fun c =>
            saveEdges l' (mkT c (kSaveEdge (ks t) p i) (cur t ++ [i]) (Some i) (ret t) (completed t)))
        end
    end.
  (** Z3.cpp:521-537: PathFilterList (Z3.cpp:137-183) evaluates from the left and stops at false *)
  Definition atLeaf (final : N) (t : trav) : res trav :=
    if length (cur t) =? 0 then Undefined
    else
      bind (csSaveFinalEdge (cs t) (prev t) final) (fun r =>
      let (ok, c) := r in
      if negb ok then Ok (mkT c (ks t) (cur t) (prev t) (ret t) (completed t))
      else match prev t with
           | None => Undefined
           | Some p =>
               let (ok', k) := kSaveFinalEdge (ks t) p final in
               if negb ok' then Ok (mkT c k (cur t) (prev t) (ret t) (completed t))
               else if model k
               then Ok (mkT c k (cur t) (prev t) (ret t ++ [(cur t, getPathConstraints k)]) (S (completed t)))
               else Undefined
           end).
  (** Z3.cpp:497-507 in reverse *)
  Definition restore (t0 t : trav) : res trav :=
    bind (csRestore (cs t)) (fun c => Ok (mkT c (kRestore (ks t)) (cur t0) (prev t0) (ret t) (completed t))).
  Fixpoint flattenAll (rec : nat -> trav -> res trav) (es : list (unit * nat)) (t : trav) : res trav :=
    match es with
    | [] => Ok t
    | e :: es' => bind (rec (snd e) t) (flattenAll rec es')
    end.
  (** [a >= max] *)
  Definition enough (max : option nat) (a : nat) : bool := match max with Some m => m <=? a | None => false end.
  (** Z3.cpp:494-553 *)
  Fixpoint flatten (fuel : nat) (G : pgraph N) (leaf : nat) (final : N) (max : option nat) (v : nat) (t0 : trav) : res trav :=
    match fuel with
    | 0 => NoFuel
    | S f =>
        bind (saveEdges (rev (tagOf G v)) (mkT (csSave (cs t0)) (kSave (ks t0)) (cur t0) (prev t0) (ret t0) (completed t0))) (fun t =>
        bind (if v =? leaf then atLeaf final t
              else if length (outEdges G v) =? 0 then Fatal
              else if enough max (completed t) then Ok t
              else if negb (valid (cs t)) then Ok t
              else
                let (ok, k) := kIsValid (ks t) in
                let t1 := mkT (cs t) k (cur t) (prev t) (ret t) (completed t) in
                if negb ok then Ok t1
                else flattenAll (flatten f G leaf final max) (outEdges G v) t1)
             (restore t0))
    end.
  Definition filterAndFlattenRevDag (fuel : nat) (add : option (form A)) (G : pgraph N) (leaf : nat) (final : N)
      (max : option nat) : res (list flowPath) :=
    bind (flattenAll (flatten fuel G leaf final max) (map (pair tt) (roots G))
            (mkT emptyCS (initK (match add with Some f => f | None => FTrue end)) [] None [] 0)) (fun t => Ok (ret t)).

  (** ** deduplicatePaths, Z3.cpp:566-578 *)
  (** std::sort for the order at Z3.cpp:570-575 *)
  Variable sort : list flowPath -> list flowPath.
  (** std::unique with FP.h:47-49 *)
  Fixpoint uniqueFrom (p : flowPath) (l : list flowPath) : list flowPath :=
    match l with
    | [] => [p]
    | q :: l' => if eqb (fst p) (fst q) then uniqueFrom p l' else p :: uniqueFrom q l'
    end.
  Definition unique (l : list flowPath) : list flowPath := match l with [] => [] | p :: l' => uniqueFrom p l' end.
  Definition deduplicatePaths (l : list flowPath) : list flowPath := unique (sort l).

  (** ** pathsTo, Z3.h:92-171, after pathsDagTo *)
  (** z3::expr::is_false() *)
  Variable isFalse : form A -> bool.
  Definition findLeaf (G : pgraph N) : option nat := find (fun v => length (outEdges G v) =? 0) (seq 0 (size G)).
  Definition pathsIn (fuel : nat) (add : option (form A)) (max : option nat) (inst : N) (G : pgraph N) : res (list flowPath) :=
    match findLeaf G with
    | None => Undefined
    | Some leaf =>
        bind (filterOutUnreachableNodes fuel add leaf G) (fun r =>
        if isFalse (fst r) then Ok []
        else bind (filterAndFlattenRevDag fuel add (snd r) leaf inst max) (fun ps => Ok (deduplicatePaths ps)))
    end.

  Context {D : Type} `{EqDec D}.
  (** Z3.h:102: the default filter ends nowhere and rejects nothing.  [None]: no graph *)
  Definition pathsTo (cf fuel : nat) (g : esg N D) (add : option (form A)) (max : option nat) (conf : config) (inst : N) (fact : D)
    : option (res (list flowPath)) :=
    match pathsDagToAll g (fun _ _ => false) (fun _ _ => false) cf fuel inst [fact] conf with
    | Paths R => Some (pathsIn fuel add max inst R)
    | _ => None
    end.
End Filters.
Arguments fstate : clear implicits.
Arguments cstate : clear implicits.
Arguments kstate : clear implicits.
Arguments trav : clear implicits.
Arguments flowPath : clear implicits.
