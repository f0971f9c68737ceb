(** Model of /repo/include/phasar/DataFlow/IfdsIde/Solver/FlowEdgeFunctionCache.h
    ("Cache.h"), without counters and logging.

    [K] are the addresses of llvm::Values.  A node/fact type that derives from
    llvm::Value is compressed by LLVMMapKeyCompressor ([inl] key); any other
    node type is an integer used as it is ([inr], DefaultMapKeyCompressor: the
    code |='s it into a uint64_t), other fact types are used as pairs. *)
From Coq Require Import List Bool NArith.
From Verif Require Import Assoc EquivClassMapModel.
Import ListNotations.
Open Scope N_scope.

Section Cache.
  Context {Nd Fn Fc FF EF K : Type}.
  Context `{EqDec Nd} `{EqDec Fn} `{EqDec Fc} `{EqDec K}.
  (** operator== of EdgeFunction *)
  Variable efeqb : EF -> EF -> bool.

  (** the problem's (pure) factories; the summary flow function may be null *)
  Record problem := mkProblem {
    pNormalFF : Nd -> Nd -> FF;
    pCallFF : Nd -> Fn -> FF;
    pRetFF : Nd -> Fn -> Nd -> Nd -> FF;
    pCtrFF : Nd -> Nd -> list Fn -> FF;
    pSumFF : Nd -> Fn -> option FF;
    pNormalEF : Nd -> Fc -> Nd -> Fc -> EF;
    pCallEF : Nd -> Fc -> Fn -> Fc -> EF;
    pRetEF : Nd -> Fn -> Nd -> Fc -> Nd -> Fc -> EF;
    pCtrEF : Nd -> Fc -> Nd -> Fc -> list Fn -> EF;
    pSumEF : Nd -> Fc -> Nd -> Fc -> EF }.
  Variable P : problem.
  (** Problem.getIFDSIDESolverConfig().autoAddZero(), Cache.h:153 *)
  Variable autoAddZero : bool.
  (** make_shared<ZeroedFlowFunction>(FF, ZV) *)
  Variable zeroed : FF -> FF.
  (** key compressors, Cache.h:87-98 *)
  Variable nodeId : Nd -> K + N.
  Variable factId : Fc -> option K.

  Definition wrap (f : FF) : FF := if autoAddZero then zeroed f else f.

  Definition nodeKey : Type := N + (Fc * Fc).

  Record cache := mkCache {
    comp : list (K * N);                                  (* LLVMMapKeyCompressor::Map *)
    normalC : list (N * (option FF * ecm nodeKey EF));
    callFC : list ((Nd * Fn) * FF);
    retFC : list ((Nd * Fn * Nd * Nd) * FF);
    ctrFC : list ((Nd * Nd) * FF);
    callEC : list ((Nd * Fc * Fn * Fc) * EF);
    retEC : list ((Nd * Fn * Nd * Fc * Nd * Fc) * EF);
    ctrEC : list (N * ecm nodeKey EF);
    sumEC : list ((Nd * Fc * Nd * Fc) * EF) }.

  Definition empty : cache := mkCache [] [] [] [] [] [] [] [] [].

  (** LLVMMapKeyCompressor::getCompressedID, Cache.h:57-63; the id is a uint32_t *)
  Definition compressV (k : K) (m : list (K * N)) : N * list (K * N) :=
    match afind k m with
    | Some i => (i, m)
    | None => let i := (N.of_nat (length m) + 1) mod 2 ^ 32 in (i, m ++ [(k, i)])
    end.

  (** getCompressedID of the combined compressor for a node *)
  Definition compressN (n : Nd) (m : list (K * N)) : N * list (K * N) :=
    match nodeId n with
    | inl k => compressV k m
    | inr i => (i, m)
    end.

  (** Val |= a; Val <<= 32; Val |= b, on uint64_t *)
  Definition pack (a b : N) : N := N.lor (N.shiftl a 32 mod 2 ^ 64) b mod 2 ^ 64.

  (** createEdgeFunctionInstKey, Cache.h:637-643 *)
  Definition instKey (l r : Nd) (m : list (K * N)) : N * list (K * N) :=
    let (a, m1) := compressN l m in
    let (b, m2) := compressN r m1 in
    (pack a b, m2).

  (** createEdgeFunctionNodeKey, Cache.h:645-655 *)
  Definition mkNodeKey (l r : Fc) (m : list (K * N)) : nodeKey * list (K * N) :=
    match factId l, factId r with
    | Some a, Some b =>
        let (x, m1) := compressV a m in
        let (y, m2) := compressV b m1 in
        (inl (pack x y), m2)
    | _, _ => (inr (l, r), m)
    end.

  Inductive query :=
  | QNormalFF (curr succ : Nd)
  | QCallFF (cs : Nd) (f : Fn)
  | QRetFF (cs : Nd) (f : Fn) (ex rs : Nd)
  | QCtrFF (cs rs : Nd) (callees : list Fn)
  | QSumFF (cs : Nd) (f : Fn)
  | QNormalEF (curr : Nd) (d : Fc) (succ : Nd) (d' : Fc)
  | QCallEF (cs : Nd) (d : Fc) (f : Fn) (d' : Fc)
  | QRetEF (cs : Nd) (f : Fn) (ex : Nd) (d : Fc) (rs : Nd) (d' : Fc)
  | QCtrEF (cs : Nd) (d : Fc) (rs : Nd) (d' : Fc) (callees : list Fn)
  | QSumEF (cs : Nd) (d : Fc) (rs : Nd) (d' : Fc).

  Inductive answer :=
  | AFF (f : FF)
  | ASumFF (f : option FF)
  | AEF (e : EF).

  Definition setComp (m : list (K * N)) (c : cache) : cache :=
    mkCache m (normalC c) (callFC c) (retFC c) (ctrFC c) (callEC c) (retEC c) (ctrEC c) (sumEC c).
  Definition setNormal x (c : cache) : cache :=
    mkCache (comp c) x (callFC c) (retFC c) (ctrFC c) (callEC c) (retEC c) (ctrEC c) (sumEC c).
  Definition setCtrE x (c : cache) : cache :=
    mkCache (comp c) (normalC c) (callFC c) (retFC c) (ctrFC c) (callEC c) (retEC c) x (sumEC c).

  (** std::map find, else construct and insert *)
  Definition lookupOr {X Y} `{EqDec X} (k : X) (mk : Y) (m : list (X * Y)) : Y * list (X * Y) :=
    match afind k m with
    | Some v => (v, m)
    | None => (mk, aset k mk m)
    end.

  (** getNormalFlowFunction, Cache.h:192-224 *)
  Definition getNormalFF (n s : Nd) (c : cache) : FF * cache :=
    let (key, m) := instKey n s (comp c) in
    let c := setComp m c in
    match afind key (normalC c) with
    | Some (Some f, _) => (f, c)
    | Some (None, em) =>
        let f := wrap (pNormalFF P n s) in
        (f, setNormal (aset key (Some f, em) (normalC c)) c)
    | None =>
        let f := wrap (pNormalFF P n s) in
        (f, setNormal (aset key (Some f, []) (normalC c)) c)
    end.

  (** getNormalEdgeFunction, Cache.h:332-377.  The key is computed again for
      the insertion; this changes nothing, it is computed once here. *)
  Definition getNormalEF (n : Nd) (d : Fc) (s : Nd) (d' : Fc) (c : cache) : EF * cache :=
    let (key, m) := instKey n s (comp c) in
    let (nk, m') := mkNodeKey d d' m in
    let c := setComp m' c in
    match afind key (normalC c) with
    | Some (of, em) =>
        match findValue nk em with
        | Some e => (e, c)
        | None =>
            let e := pNormalEF P n d s d' in
            (e, setNormal (aset key (of, fst (try_emplace efeqb nk e em)) (normalC c)) c)
        end
    | None =>
        let e := pNormalEF P n d s d' in
        (e, setNormal (aset key (None, insertRange efeqb [(nk, e)] []) (normalC c)) c)
    end.

  (** getCallToRetEdgeFunction, Cache.h:449-505 *)
  Definition getCtrEF (n : Nd) (d : Fc) (s : Nd) (d' : Fc) (fs : list Fn) (c : cache) : EF * cache :=
    let (key, m) := instKey n s (comp c) in
    let (nk, m') := mkNodeKey d d' m in
    let c := setComp m' c in
    match afind key (ctrEC c) with
    | Some em =>
        match findValue nk em with
        | Some e => (e, c)
        | None =>
            let e := pCtrEF P n d s d' fs in
            (e, setCtrE (aset key (fst (try_emplace efeqb nk e em)) (ctrEC c)) c)
        end
    | None =>
        let e := pCtrEF P n d s d' fs in
        (e, setCtrE (aset key (insertRange efeqb [(nk, e)] []) (ctrEC c)) c)
    end.

  Definition ask (q : query) (c : cache) : answer * cache :=
    match q with
    | QNormalFF n s => let (f, c') := getNormalFF n s c in (AFF f, c')
    (* getCallFlowFunction, Cache.h:226-249 *)
    | QCallFF n f =>
        let (r, x) := lookupOr (n, f) (wrap (pCallFF P n f)) (callFC c) in
        (AFF r, mkCache (comp c) (normalC c) x (retFC c) (ctrFC c) (callEC c) (retEC c) (ctrEC c) (sumEC c))
    (* getRetFlowFunction, Cache.h:251-282 *)
    | QRetFF n f e s =>
        let (r, x) := lookupOr (n, f, e, s) (wrap (pRetFF P n f e s)) (retFC c) in
        (AFF r, mkCache (comp c) (normalC c) (callFC c) x (ctrFC c) (callEC c) (retEC c) (ctrEC c) (sumEC c))
    (* getCallToRetFlowFunction, Cache.h:284-316 *)
    | QCtrFF n s fs =>
        let (r, x) := lookupOr (n, s) (wrap (pCtrFF P n s fs)) (ctrFC c) in
        (AFF r, mkCache (comp c) (normalC c) (callFC c) (retFC c) x (callEC c) (retEC c) (ctrEC c) (sumEC c))
    (* getSummaryFlowFunction, Cache.h:318-330 *)
    | QSumFF n f => (ASumFF (pSumFF P n f), c)
    | QNormalEF n d s d' => let (e, c') := getNormalEF n d s d' c in (AEF e, c')
    (* getCallEdgeFunction, Cache.h:379-410 *)
    | QCallEF n d f d' =>
        let (r, x) := lookupOr (n, d, f, d') (pCallEF P n d f d') (callEC c) in
        (AEF r, mkCache (comp c) (normalC c) (callFC c) (retFC c) (ctrFC c) x (retEC c) (ctrEC c) (sumEC c))
    (* getReturnEdgeFunction, Cache.h:412-447 *)
    | QRetEF n f e d s d' =>
        let (r, x) := lookupOr (n, f, e, d, s, d') (pRetEF P n f e d s d') (retEC c) in
        (AEF r, mkCache (comp c) (normalC c) (callFC c) (retFC c) (ctrFC c) (callEC c) x (ctrEC c) (sumEC c))
    | QCtrEF n d s d' fs => let (e, c') := getCtrEF n d s d' fs c in (AEF e, c')
    (* getSummaryEdgeFunction, Cache.h:507-536 *)
    | QSumEF n d s d' =>
        let (r, x) := lookupOr (n, d, s, d') (pSumEF P n d s d') (sumEC c) in
        (AEF r, mkCache (comp c) (normalC c) (callFC c) (retFC c) (ctrFC c) (callEC c) (retEC c) (ctrEC c) x)
    end.

  (** a sequence of queries *)
  Fixpoint run (qs : list query) (c : cache) : list answer * cache :=
    match qs with
    | [] => ([], c)
    | q :: qs' =>
        let (a, c') := ask q c in
        let (l, c'') := run qs' c' in
        (a :: l, c'')
    end.
End Cache.
Arguments problem : clear implicits.
Arguments query : clear implicits.
Arguments answer : clear implicits.
Arguments cache : clear implicits.
