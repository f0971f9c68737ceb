(** Model of /repo/include/phasar/DataFlow/PathSensitivity/ExplodedSuperGraph.h
    ("ESG.h"), with the kinds of
    /repo/include/phasar/DataFlow/IfdsIde/Solver/ESGEdgeKind.h, as filled by
    PathAwareIDESolver::saveEdges,
    /repo/include/phasar/DataFlow/IfdsIde/Solver/PathAwareIDESolver.h:54-58.

    NodeDataOwner and NodeAdjOwner have the same length (the assertions at
    ESG.h:183, 297), so one vector holds both halves of a node.
    [None] stands for NoPredId.  FlowFactVertexMap is a finite map.  Facts are
    copied where the code moves them (saveEdges reads CurrNode after moving it,
    ESG.h:196-202, which is harmless for the pointer-like facts used).
    Not modelled: printing (ESG.h:235-263) and the iterators over all nodes. *)
From Coq Require Import List Bool Arith.
From Verif Require Import Assoc.
Import ListNotations.

(** ESGEdgeKind.h:14 *)
Inductive edgeKind := Normal | Call | CallToRet | SkipUnknownFn | Ret | Summary.
#[global] Instance EqDec_edgeKind : EqDec edgeKind.
Proof. intros x y. unfold EqDec in *. decide equality. Defined.

Section ESG.
  Context {N D B : Type} `{EqDec N} `{EqDec D} `{EqDec B}.
  (** llvm::Instruction::getParent: the basic block of an instruction *)
  Variable blockOf : N -> B.
  Variable zero : D.

  (** NodeData and NodeAdj, ESG.h:61-69 *)
  Record esgNode := mkNode { value : D; source : N; pred : option nat; neighbors : list nat }.
  Record esg := mkESG { owner : list esgNode; vertexMap : list ((N * D) * nat) }.
  Definition emptyESG : esg := mkESG [] [].

  Definition nodeAt (g : esg) (k : nat) : option esgNode := nth_error (owner g) k.
  (** NodeRef::predecessor().id(), ESG.h:91-95 *)
  Definition predOf (g : esg) (k : nat) : option nat :=
    match nodeAt g k with Some nd => pred nd | None => None end.
  (** ESG.h:173-180, 275-284 *)
  Definition getNodeOrNull (g : esg) (n : N) (d : D) : option nat := afind (n, d) (vertexMap g).

  Fixpoint updAt (f : esgNode -> esgNode) (k : nat) (l : list esgNode) : list esgNode :=
    match l, k with
    | [], _ => []
    | x :: l', 0 => f x :: l'
    | x :: l', S k' => x :: updAt f k' l'
    end.
  Definition setVertex (g : esg) (x : N * D) (k : nat) : esg := mkESG (owner g) (aset x k (vertexMap g)).

  (** the lambda makeNode, ESG.h:296-314 *)
  Definition makeNode (g : esg) (predId : option nat) (curr : N) (currNode succNode : D) : nat * esg :=
    let r := length (owner g) in
    (r, mkESG (owner g ++ [mkNode succNode curr predId []])
              (match predId with
               | None => aset (curr, currNode) r (vertexMap g)
               | Some _ => vertexMap g
               end)).

  (** the condition at ESG.h:327-329 *)
  Definition identityEdge (g : esg) (predId : option nat) (succ : N) (succNode : D) : bool :=
    match predId with
    | None => false
    | Some p =>
        match nodeAt g p with
        | None => false
        | Some nd => eqb (value nd) succNode && eqb (blockOf (source nd)) (blockOf succ)
                     && negb (eqb succNode zero)
        end
    end.

  (** ESG.h:348-368: the destination has the node [k] already *)
  Definition connect (g : esg) (predId : option nat) (curr : N) (currNode succNode : D) (k : nat)
    : option esg :=
    match nodeAt g k with
    | None => None
    | Some nd =>
        match pred nd with
        | None =>
            Some (mkESG (updAt (fun nd => mkNode (value nd) curr predId (neighbors nd)) k (owner g))
                        (vertexMap g))
        | Some q =>
            if negb (eqb (Some q) predId)
               && forallb (fun nb => negb (eqb (predOf g nb) predId)) (neighbors nd)
            then
              let (r, g1) := makeNode g predId curr currNode succNode in
              Some (mkESG (updAt (fun nd => mkNode (value nd) (source nd) (pred nd) (neighbors nd ++ [r]))
                                 k (owner g1))
                          (vertexMap g1))
            else Some g
        end
    end.

  (** saveEdge, ESG.h:286-369.  [None]: the assertion at line 319 fails (or an
      id is out of range). *)
  Definition saveEdge (g : esg) (predId : option nat) (curr : N) (currNode : D) (succ : N) (succNode : D)
      (maySkip : bool) : option esg :=
    let inserted := getNodeOrNull g succ succNode in
    if maySkip && eqb succNode currNode then
      match predId with
      | None => None
      | Some _ =>
          match inserted with
          | None =>
              let (r, g1) := makeNode g predId curr currNode succNode in
              Some (setVertex
                      (mkESG (updAt (fun nd => mkNode (value nd) (source nd) None (neighbors nd)) r (owner g1))
                             (vertexMap g1))
                      (succ, succNode) r)
          | Some _ => Some g
          end
      end
    else
      match inserted with
      | None =>
          match predId with
          | Some p =>
              if identityEdge g predId succ succNode then Some (setVertex g (succ, succNode) p)
              else let (r, g1) := makeNode g predId curr currNode succNode in
                   Some (setVertex g1 (succ, succNode) r)
          | None =>
              let (r, g1) := makeNode g predId curr currNode succNode in
              Some (setVertex g1 (succ, succNode) r)
          end
      | Some k =>
          if identityEdge g predId succ succNode && eqb predId (Some k) then Some g
          else connect g predId curr currNode succNode k
      end.

  Fixpoint saveAll (g : esg) (predId : option nat) (curr : N) (currNode : D) (succ : N) (ds : list D)
      (maySkip : bool) : option esg :=
    match ds with
    | [] => Some g
    | d :: ds' =>
        match saveEdge g predId curr currNode succ d maySkip with
        | None => None
        | Some g' => saveAll g' predId curr currNode succ ds' maySkip
        end
    end.

  (** a call of saveEdges, ESG.h:193-204 *)
  Record call := mkCall { curr : N; currFact : D; succ : N; succFacts : list D; kind : edgeKind }.
  Definition saveEdges (g : esg) (c : call) : option esg :=
    saveAll g (getNodeOrNull g (curr c) (currFact c)) (curr c) (currFact c) (succ c) (succFacts c)
      (eqb (kind c) CallToRet && eqb (currFact c) zero).

  Fixpoint build (g : esg) (cs : list call) : option esg :=
    match cs with
    | [] => Some g
    | c :: cs' => match saveEdges g c with None => None | Some g' => build g' cs' end
    end.
End ESG.
Arguments esgNode : clear implicits.
Arguments esg : clear implicits.
Arguments call : clear implicits.
