(** Model of the path tracing in
    /repo/include/phasar/DataFlow/PathSensitivity/PathSensitivityManagerMixin.h
    ("Mixin.h") and PathSensitivityManagerBase.h ("Base.h", same directory),
    with the filters of PathTracingFilter.h and reverseGraph of
    /repo/include/phasar/Utils/GraphTraits.h ("GT.h").

    The exploded supergraph is that of ExplodedSuperGraphModel, graphs and
    their minimisation are those of DFAMinimizerModel (edges without weight).
    A NodeRef is the id of a node, the null NodeRef is [None]; so is the vertex
    Invalid.  The two filters are arbitrary functions without side effects.
    Recursion and the do-while loop have fuel.  That a message is logged at
    level WARNING or ERROR is recorded in [logged].  Node tags are moved where
    they are not used again, which is copying here.  The temporary buffer of
    reverseDAG (Base.h:109-133) is three separate objects, its [Equiv] is the
    identity (the only instantiation, Base.h:183).
    Not modelled: pathsDagToInLLVMSSA, which calls pathsDagToAll for another
    instruction; pathsDagTo, which calls it for the facts of the results. *)
From Coq Require Import List Bool Arith.
From Verif Require Import Assoc DFAMinimizerModel ExplodedSuperGraphModel.
Import ListNotations.

(** AL.h is /repo/include/phasar/Utils/AdjacencyList.h *)
Section Graphs.
  Context {T : Type}.
  Definition pgraph : Type := graph (list T) unit.

  (** assignment to node(G, v), AL.h:177-184 *)
  Definition setTag (G : pgraph) (v : nat) (l : list T) : pgraph :=
    mkGraph (setAt v l (nodes G)) (adj G) (roots G).
  (** AL.h:129-138 *)
  Definition dedupAt (G : pgraph) (v : nat) : pgraph :=
    mkGraph (nodes G) (setAt v (dedup (outEdges G v)) (adj G)) (roots G).
  (** AL.h:225-234 *)
  Definition pop (G : pgraph) (v : nat) : option pgraph :=
    if S v =? size G then Some (mkGraph (removelast (nodes G)) (removelast (adj G)) (roots G)) else None.

  (** reverseGraph, GT.h:145-170 *)
  Definition reverseAt (G : pgraph) (R : pgraph) (v : nat) : pgraph :=
    let R1 := fold_left (fun R e => addEdge R (snd e) (fst e, v)) (outEdges G v) R in
    if length (outEdges G v) =? 0 then addRoot R1 v else R1.
  Definition reverseGraph (G : pgraph) : pgraph :=
    fold_left (reverseAt G) (seq 0 (size G))
      (fold_left (fun R l => snd (addNode R (Some l))) (nodes G) emptyGraph).

  (** reverseDAG, Base.h:85-184 *)
  Record revState := mkRev { out : pgraph; revOf : list (nat * nat); next : list (nat * nat) }.
  (** Base.h:135-141 and 151-155 *)
  Definition enter (G : pgraph) (s : revState) (v : nat) : revState :=
    match afind v (revOf s) with
    | Some _ => s
    | None =>
        let (r, R) := addNode (out s) (node G v) in
        mkRev R (aset v r (revOf s)) (next s ++ [(v, r)])
    end.
  (** Base.h:148-160 *)
  Definition revEdge (G : pgraph) (r : nat) (s : revState) (e : unit * nat) : revState :=
    let s1 := enter G s (snd e) in
    mkRev (addEdge (out s1) (afindd 0 (snd e) (revOf s1)) (fst e, r)) (revOf s1) (next s1).
  (** Base.h:146-164 *)
  Definition revVertex (G : pgraph) (s : revState) (x : nat * nat) : revState :=
    let s1 := fold_left (revEdge G (snd x)) (outEdges G (fst x)) s in
    if length (outEdges G (fst x)) =? 0 then mkRev (addRoot (out s1) (snd x)) (revOf s1) (next s1) else s1.
  (** Base.h:143-175; [next s] is the level to be consumed *)
  Fixpoint levels (G : pgraph) (depth : nat) (s : revState) : pgraph :=
    match next s, depth with
    | [], _ => out s
    | wl, 0 => fold_left (fun R x => addRoot R (snd x)) wl (out s)
    | wl, S depth' => levels G depth' (fold_left (revVertex G) wl (mkRev (out s) (revOf s) []))
    end.
  Definition reverseDAG (G : pgraph) (maxDepth : nat) : pgraph :=
    levels G maxDepth (fold_left (enter G) (roots G) (mkRev emptyGraph [] [])).

  (** assertIsDAG, Base.h:45-83: the answer and Visited; CurrPath is [path] *)
  Fixpoint doAssertIsDAG (fuel : nat) (G : pgraph) (path visited : list nat) (v : nat)
    : option (bool * list nat) :=
    match fuel with
    | 0 => None
    | S f =>
        if mem v path then Some (false, visited)
        else if mem v visited then Some (true, visited)
        else
          (fix succs (es : list (unit * nat)) (visited : list nat) : option (bool * list nat) :=
             match es with
             | [] => Some (true, visited)
             | e :: es' =>
                 match doAssertIsDAG f G (v :: path) visited (snd e) with
                 | Some (true, visited') => succs es' visited'
                 | r => r
                 end
             end) (outEdges G v) (v :: visited)
    end.
  Fixpoint assertRoots (fuel : nat) (G : pgraph) (visited : list nat) (rs : list nat) : option bool :=
    match rs with
    | [] => Some true
    | r :: rs' =>
        match doAssertIsDAG fuel G [] visited r with
        | Some (true, visited') => assertRoots fuel G visited' rs'
        | Some (false, _) => Some false
        | None => None
        end
    end.
  Definition assertIsDAG (fuel : nat) (G : pgraph) : option bool := assertRoots fuel G [] (roots G).
End Graphs.
Arguments pgraph : clear implicits.

Section Paths.
  Context {N D : Type} `{EqDec N} `{EqDec D}.
  Variable g : esg N D.
  (** PathTracingFilter::HasReachedEnd and IsErrorneousTransition *)
  Variable isEnd isErr : nat -> option nat -> bool.

  (** PathsToContext, Mixin.h:51-54, and the graph that is built *)
  Record ctx := mkCtx { dag : pgraph N; cache : list (nat * option nat); path : list nat; logged : bool }.
  Definition onDag (f : pgraph N -> pgraph N) (c : ctx) : ctx := mkCtx (f (dag c)) (cache c) (path c) (logged c).

  (** The loop at Mixin.h:225-245: the tags, Prev, Vtx, IsEnd, IsError after it.
      [None]: out of fuel. *)
  Fixpoint chain (fuel : nat) (vtx : nat) (tags : list N) : option (list N * nat * option nat * bool * bool) :=
    match fuel, nodeAt g vtx with
    | S f, Some nd =>
        let tags' := tags ++ [source nd] in
        let e := isEnd vtx (pred nd) in
        let r := negb e && isErr vtx (pred nd) in
        match pred nd with
        | None => Some (tags', vtx, None, e, r)
        | Some p =>
            if e || r then Some (tags', vtx, Some p, e, r)
            else match nodeAt g p with
                 | None => None
                 | Some pd =>
                     if length (neighbors pd) =? 0 then chain f p tags' else Some (tags', vtx, Some p, e, r)
                 end
        end
    | _, _ => None
    end.

  (** traverseNext, Mixin.h:254-259 *)
  Definition traverseNext (rec : nat -> ctx -> option (option nat * ctx)) (ret nxt : nat) (c : ctx) : option ctx :=
    match rec nxt c with
    | None => None
    | Some (None, c') => Some c'
    | Some (Some s, c') => Some (if mem s (path c') then c' else onDag (fun G => addEdge G ret (tt, s)) c')
    end.
  (** Mixin.h:265-275 *)
  Fixpoint traverseAll (rec : nat -> ctx -> option (option nat * ctx)) (ret prev : nat) (nbs : list nat)
      (e : bool) (c : ctx) : option (bool * ctx) :=
    match nbs with
    | [] => Some (e, c)
    | q :: nbs' =>
        if isErr prev (Some q) then traverseAll rec ret prev nbs' e c
        else if isEnd prev (Some q) then traverseAll rec ret prev nbs' true c
        else match traverseNext rec ret q c with
             | None => None
             | Some c' => traverseAll rec ret prev nbs' e c'
             end
    end.
  (** Mixin.h:218-280 *)
  Definition pathsToImplLAInvoke (cf : nat) (rec : nat -> ctx -> option (option nat * ctx)) (ret vtx : nat)
      (c : ctx) : option (bool * ctx) :=
    match chain cf vtx [] with
    | None => None
    | Some (tags, prev, nxt, e, r) =>
        let c1 := onDag (fun G => setTag G ret tags) c in
        match nxt with
        | None => Some (negb r, c1)
        | Some p =>
            if mem ret (path c1) then Some (false, mkCtx (dag c1) (cache c1) (path c1) true)
            else
              let c2 := mkCtx (dag c1) (cache c1) (ret :: path c1) (logged c1) in
              match (if e || r then Some c2 else traverseNext rec ret p c2) with
              | None => None
              | Some c3 =>
                  match traverseAll rec ret prev (match nodeAt g p with Some pd => neighbors pd | None => [] end) e c3 with
                  | None => None
                  | Some (e', c4) =>
                      let G := dedupAt (dag c4) ret in
                      Some (e' || negb (length (outEdges G ret) =? 0),
                            mkCtx G (cache c4) (tl (path c4)) (logged c4))
                  end
              end
        end
    end.
  (** Mixin.h:282-312 *)
  Fixpoint pathsToImplLA (cf fuel : nat) (vtx : nat) (c : ctx) : option (option nat * ctx) :=
    match fuel with
    | 0 => None
    | S f =>
        match afind vtx (cache c) with
        | Some r => Some (r, c)
        | None =>
            let (ret, G) := addNode (dag c) (Some []) in
            match pathsToImplLAInvoke cf (pathsToImplLA cf f) ret vtx
                    (mkCtx G (aset vtx (Some ret) (cache c)) (path c) (logged c)) with
            | None => None
            | Some (true, c') => Some (Some ret, c')
            | Some (false, c') =>
                let ca := aset vtx None (cache c') in
                Some (None,
                  match (if mem ret (path c') then None else pop (dag c') ret) with
                  | Some G' => mkCtx G' ca (path c') (logged c')
                  | None => mkCtx (setTag (dag c') ret []) ca (path c') true
                  end)
            end
        end
    end.

  (** Mixin.h:322-331: [ret] is connected to what is found for [vs] *)
  Fixpoint linkAll (cf fuel : nat) (ret : nat) (vs : list nat) (c : ctx) : option ctx :=
    match vs with
    | [] => Some c
    | v :: vs' =>
        match pathsToImplLA cf fuel v c with
        | None => None
        | Some (None, c') => linkAll cf fuel ret vs' c'
        | Some (Some s, c') => linkAll cf fuel ret vs' (onDag (fun G => addEdge G ret (tt, s)) c')
        end
    end.
  (** pathsToImpl, Mixin.h:314-336 *)
  Definition pathsToImpl (cf fuel : nat) (inst : N) (vtx : nat) (c : ctx) : option (nat * ctx) :=
    let (ret, G) := addNode (dag c) (Some [inst]) in
    match linkAll cf fuel ret (match nodeAt g vtx with Some nd => neighbors nd | None => [] end ++ [vtx])
            (mkCtx G (cache c) (path c) (logged c)) with
    | None => None
    | Some c' => Some (ret, onDag (fun G => dedupAt G ret) c')
    end.

  Inductive outcome := OutOfFuel | NoNode | Circle | Paths (G : pgraph N).

  (** Mixin.h:84-116.  [inl]: out of fuel or abort. *)
  Fixpoint tracePaths (cf fuel : nat) (inst : N) (facts : list D) (c : ctx) : outcome + ctx :=
    match facts with
    | [] => inr c
    | d :: facts' =>
        match getNodeOrNull g inst d with
        | None => inl NoNode
        | Some vtx =>
            match pathsToImpl cf fuel inst vtx c with
            | None => inl OutOfFuel
            | Some (rt, c') => tracePaths cf fuel inst facts' (onDag (fun G => addRoot G rt) c')
            end
        end
    end.
  Definition emptyCtx : ctx := mkCtx emptyGraph [] [] false.

  (** Mixin.h:118-126, 140-147 *)
  Definition checked (fuel : nat) (G : pgraph N) : outcome :=
    match assertIsDAG fuel G with
    | None => OutOfFuel
    | Some false => Circle
    | Some true => Paths G
    end.
  (** PathSensitivityConfig.h:20-23; [None]: SIZE_MAX *)
  Record config := mkConfig { depthThreshold : option nat; minimizeDAG : bool }.
  (** pathsDagToAll, Mixin.h:73-151 *)
  Definition pathsDagToAll (cf fuel : nat) (inst : N) (facts : list D) (conf : config) : outcome :=
    match tracePaths cf fuel inst facts emptyCtx with
    | inl o => o
    | inr c =>
        match checked fuel (dag c) with
        | Paths G =>
            let R := match depthThreshold conf with
                     | Some m => reverseDAG G m
                     | None => reverseGraph G
                     end in
            if minimizeDAG conf then
              match minimized fuel R with
              | None => OutOfFuel
              | Some M => checked fuel M
              end
            else Paths R
        | o => o
        end
    end.
End Paths.
Arguments outcome : clear implicits.
Arguments ctx : clear implicits.
