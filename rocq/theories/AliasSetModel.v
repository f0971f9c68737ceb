(** Model of LLVMAliasSet (lib/PhasarLLVM/Pointer/LLVMAliasSet.cpp) and of
    AliasSetOwner (include/phasar/Pointer/AliasSetOwner.h:39-118).

    Values, functions and types are numbers. An alias set lives at an address of [heap], which is
    exactly OwnedPTS with the contents; [boxes] is AllPTS, the stable vector of set pointers; a
    BoxedPtr is an index of [boxes] (include/phasar/Utils/BoxedPointer.h). The allocator may
    reuse addresses of released sets ([fresh] only avoids live ones). A DenseSet is the
    duplicate-free list of its elements, visited in the order [iter].
    [None]: use of a released or null alias set, the fatal error of release, a failed assertion.
    The LLVM module and the LLVM alias analysis are variables of the section; logging, PTA.erase
    and the capacity hints are left out. *)
From Coq Require Import List Bool Arith.
From Verif Require Import Assoc UtilitiesModel.
Import ListNotations.

Record ast := mkA { heap : list (nat * list nat); boxes : list nat; sets : list (nat * nat); analyzed : list nat }.

Definition emptyA : ast := mkA [] [] [] [].

Fixpoint setNth (b a : nat) (l : list nat) : list nat :=
  match l, b with
  | [], _ => []
  | _ :: r, 0 => a :: r
  | x :: r, S k => x :: setNth k a r
  end.

Section Owner.
  Variable asserts : bool.
  Variable fresh : list nat -> nat.
  Variable iter : list nat -> list nat.

  (** BoxedPtr::operator* *)
  Definition deref (s : ast) (b : nat) : option (list nat) :=
    match nth_error (boxes s) b with Some a => afind a (heap s) | None => None end.

  (** AliasSetOwner::acquire, lines 80-91 *)
  Definition acquire (s : ast) : nat * ast :=
    let a := fresh (akeys (heap s)) in
    (length (boxes s), mkA (heap s ++ [(a, [])]) (boxes s ++ [a]) (sets s) (analyzed s)).

  (** AliasSetOwner::release, lines 93-106 *)
  Definition release (a : nat) (s : ast) : option ast :=
    match afind a (heap s) with
    | Some _ => Some (mkA (adel a (heap s)) (boxes s) (sets s) (analyzed s))
    | None => None
    end.

  (** PTS->insert(begin, end) *)
  Definition insertAll (b : nat) (xs : list nat) (s : ast) : option ast :=
    match nth_error (boxes s) b with
    | Some a => match afind a (heap s) with
                | Some l => Some (mkA (aset a (fold_left (fun l x => sinsert x l) xs l) (heap s)) (boxes s) (sets s) (analyzed s))
                | None => None
                end
    | None => None
    end.

  (** LLVMAliasSet.cpp:198-209 *)
  Definition addSingleton (v : nat) (s : ast) : option ast :=
    match afind v (sets s) with
    | Some b =>
        if asserts then match deref s b with Some l => if mem v l then Some s else None | None => None end else Some s
    | None =>
        let '(b, s1) := acquire s in
        match insertAll b [v] s1 with
        | Some s2 => Some (mkA (heap s2) (boxes s2) (aset v b (sets s2)) (analyzed s2))
        | None => None
        end
    end.

  (** lines 254-260, one value *)
  Definition redirect (del large : nat) (acc : option ast) (v : nat) : option ast :=
    match acc with
    | None => None
    | Some s =>
        match afind v (sets s) with
        | None => None (* AliasSets[v] is a null box *)
        | Some b =>
            match nth_error (boxes s) b, nth_error (boxes s) large with
            | Some a, Some la => if a =? del then Some (mkA (heap s) (setNth b la (boxes s)) (sets s) (analyzed s)) else Some s
            | _, _ => None
            end
        end
    end.

  (** lines 226-263 *)
  Definition mergeBoxes (b1 b2 : nat) (s : ast) : option ast :=
    match nth_error (boxes s) b1, nth_error (boxes s) b2 with
    | Some a1, Some a2 =>
        if (b1 =? b2) || (a1 =? a2) then Some s
        else
          match afind a1 (heap s), afind a2 (heap s) with
          | Some l1, Some l2 =>
              let '(small, large, ls, a) := if length l2 <? length l1 then (b2, b1, l2, a2) else (b1, b2, l1, a1) in
              match insertAll large (iter ls) s with
              | Some s1 =>
                  match fold_left (redirect a large) (iter ls) (Some s1) with
                  | Some s2 => release a s2
                  | None => None
                  end
              | None => None
              end
          | _, _ => None
          end
    | _, _ => None
    end.

  (** lines 211-224 *)
  Definition mergeValues (v1 v2 : nat) (s : ast) : option ast :=
    if v1 =? v2 then Some s
    else match afind v1 (sets s), afind v2 (sets s) with
         | Some b1, Some b2 => mergeBoxes b1 b2 s
         | _, _ => None
         end.

  (** lines 369-376 and 394-401 *)
  Definition attach (v b : nat) (s : ast) : option ast :=
    match afind v (sets s) with
    | Some b' => mergeBoxes b b' s
    | None => insertAll b [v] (mkA (heap s) (boxes s) (aset v b (sets s)) (analyzed s))
    end.

  (** lines 388-393, one index *)
  Definition mergeRep (ty : nat -> nat) (b : nat) (acc : option (ast * list nat * list nat)) (ir : nat * nat) : option (ast * list nat * list nat) :=
    match acc with
    | None => None
    | Some (s, occ, rm) =>
        match afind (snd ir) (sets s) with
        | Some b' =>
            match mergeBoxes b b' s with
            | Some s' => Some (if mem (ty (snd ir)) occ then (s', occ, rm ++ [fst ir]) else (s', occ ++ [ty (snd ir)], rm))
            | None => None
            end
        | None => None
        end
    end.

  (** addPointer, lines 339-412; [may] is mayAlias(AA, DL, _, _) *)
  Definition addPointer (may : nat -> nat -> bool) (ty : nat -> nat) (v : nat) (st : list nat * ast) : option (list nat * ast) :=
    let '(reps, s) := st in
    match filter (fun ir => may v (snd ir)) (combine (seq 0 (length reps)) reps) with
    | [] => match addSingleton v s with Some s' => Some (reps ++ [v], s') | None => None end
    | [(_, r)] =>
        match afind r (sets s) with
        | None => None
        | Some b => match attach v b s with
                    | Some s' => Some (if ty v =? ty r then reps else reps ++ [v], s')
                    | None => None
                    end
        end
    | (_, r) :: rest =>
        match afind r (sets s) with
        | None => None
        | Some b =>
            match fold_left (mergeRep ty b) rest (Some (s, [ty r], [])) with
            | None => None
            | Some (s1, occ, rm) =>
                match attach v b s1, eraseByIndex reps rm with
                | Some s2, Some reps1 => Some (if mem (ty v) occ then reps1 else reps1 ++ [v], s2)
                | _, _ => None
                end
            end
        end
    end.

  (** ** the module *)
  (** an instruction: its operands (data operands for calls), value and pointer operand of a store, called operand *)
  Record instr := mkI { iV : nat; iOps : list nat; iStore : option (nat * nat); iCallee : option nat }.
  (** an instruction using a global object: its function, if it is in one *)
  Record user := mkU { uV : nat; uFn : option nat; uStore : option (nat * nat) }.

  Variables isPtr isNull isInst isFunc isGlob decl : nat -> bool.
  (** operand of a constant cast expression *)
  Variable castOp : nat -> option nat.
  (** the global objects addIfGlobal finds below an operand (lines 414-443) *)
  Variable globalsOf : nat -> list nat.
  Variable fnInstrs : nat -> list instr.
  Variable fnArgs : nat -> list nat.
  Variable ty : nat -> nat.
  Variable may : nat -> nat -> nat -> bool.
  Variable users : nat -> list user.
  Variable fnOf : nat -> option nat.

  (** LLVMPointsToUtils.h:26-29 *)
  Definition interesting (v : nat) : bool := isPtr v && negb (isNull v).

  Inductive event := ESing (v : nat) | ELink (v w : nat) | EPtr (v : nat).

  (** lines 476-503 *)
  Definition storeEvents (st : option (nat * nat)) : list event :=
    match st with
    | None => []
    | Some (svo, spo) =>
        if isPtr svo then
          (if isFunc svo then [ESing svo; ESing spo; ELink svo spo] else [])
          ++ match castOp svo with
             | Some rhs => [ESing spo] ++ (if isPtr rhs then [ESing rhs; ELink rhs spo] else []) ++ [ESing svo; ELink svo spo]
             | None => []
             end
        else []
    end.
  Definition opEvents (o : nat) : list event := if negb (isInst o) && interesting o then [EPtr o] else [].
  (** lines 470-534 *)
  Definition instrEvents (i : instr) : list event :=
    (if isPtr (iV i) then [EPtr (iV i)] else []) ++ storeEvents (iStore i)
    ++ match iCallee i with
       | Some c => if negb (isFunc c) && interesting c && negb (isInst c) then [EPtr c] else []
       | None => []
       end
    ++ flat_map opEvents (iOps i).
  (** lines 467-549 *)
  Definition fnEvents (f : nat) : list event :=
    flat_map instrEvents (fnInstrs f) ++ map EPtr (filter isPtr (fnArgs f))
    ++ map EPtr (iter (fold_left (fun l x => sinsert x l) (flat_map globalsOf (flat_map iOps (fnInstrs f))) [])).

  Definition execEvent (f : nat) (acc : option (list nat * ast)) (e : event) : option (list nat * ast) :=
    match acc with
    | None => None
    | Some (reps, s) =>
        match e with
        | ESing v => match addSingleton v s with Some s' => Some (reps, s') | None => None end
        | ELink v w => match mergeValues v w s with Some s' => Some (reps, s') | None => None end
        | EPtr v => addPointer (may f) ty v (reps, s)
        end
    end.

  (** lines 445-553 *)
  Definition computeFunction (f : nat) (s : ast) : option ast :=
    if mem f (analyzed s) then Some s
    else
      let s1 := mkA (heap s) (boxes s) (sets s) (analyzed s ++ [f]) in
      if decl f then Some s1
      else match fold_left (execEvent f) (fnEvents f) (Some ([], s1)) with
           | Some (_, s2) => Some s2
           | None => None
           end.

  (** lines 162-196 *)
  Definition visitUser (g : nat) (acc : option ast) (u : user) : option ast :=
    match acc, uFn u with
    | Some s, Some f =>
        match computeFunction f s with
        | None => None
        | Some s1 =>
            if negb (isFunc g) && interesting (uV u) then mergeValues (uV u) g s1
            else match uStore u with
                 | Some (svo, spo) => if interesting svo then mergeValues svo spo s1 else Some s1
                 | None => Some s1
                 end
        end
    | acc, _ => acc
    end.
  Definition computeValue (v : nat) (s : ast) : option ast :=
    if interesting v then
      match addSingleton v s with
      | None => None
      | Some s1 =>
          if isGlob v then fold_left (visitUser v) (users v) (Some s1)
          else match fnOf v with Some f => computeFunction f s1 | None => Some s1 end
      end
    else Some s.

  (** lines 590-604 *)
  Definition introduceAlias (v w : nat) (s : ast) : option ast :=
    if interesting v && interesting w then
      match computeValue v s with
      | Some s1 => match computeValue w s1 with Some s2 => mergeValues v w s2 | None => None end
      | None => None
      end
    else Some s.

  (** lines 555-566 *)
  Definition alias (v w : nat) (s : ast) : option (bool * ast) :=
    if interesting v && interesting w then
      match computeValue v s with
      | Some s1 =>
          match computeValue w s1 with
          | Some s2 => match afind v (sets s2) with
                       | Some b => match deref s2 b with Some l => Some (mem w l, s2) | None => None end
                       | None => None
                       end
          | None => None
          end
      | None => None
      end
    else Some (false, s).

  (** lines 574-589: the box, [None] for the static empty set *)
  Definition getAliasSet (v : nat) (s : ast) : option (option nat * ast) :=
    if interesting v then
      match computeValue v s with
      | Some s1 => Some (afind v (sets s1), s1)
      | None => None
      end
    else Some (None, s).

  (** lines 591-656; [site]: inter- or intraIsReachableAllocationSiteTy for this query *)
  Definition allocationSites (site : nat -> nat -> bool) (v : nat) (s : ast) : option (list nat * ast) :=
    if interesting v then
      match computeValue v s with
      | Some s1 => match afind v (sets s1) with
                   | Some b => match deref s1 b with Some l => Some (filter (site v) (iter l), s1) | None => None end
                   | None => None
                   end
      | None => None
      end
    else Some ([], s).
  Definition isAllocationSite (site : nat -> nat -> bool) (v p : nat) (s : ast) : option (bool * ast) :=
    if interesting v then
      match computeValue v s with
      | Some s1 =>
          if site v p then
            match afind v (sets s1) with
            | Some b => match deref s1 b with Some l => Some (mem p l, s1) | None => None end
            | None => None
            end
          else Some (false, s1)
      | None => None
      end
    else Some (false, s).

  (** the constructor, lines 56-96 *)
  Definition optFold (f : nat -> ast -> option ast) (l : list nat) (s : ast) : option ast :=
    fold_left (fun acc x => match acc with Some s => f x s | None => None end) l (Some s).
  Definition construct (globals functions : list nat) (lazy : bool) : option ast :=
    match optFold computeValue globals emptyA with
    | Some s => match optFold computeValue functions s with
                | Some s => if lazy then Some s else optFold computeFunction (filter (fun f => negb (decl f)) functions) s
                | None => None
                end
    | None => None
    end.

  (** ** what clients may call, in any order; the queries alias, getAliasSet and the allocation sites change the state by computeValue *)
  Inductive op := OCompute (v : nat) | OIntroduce (v w : nat) | OFunction (f : nat).
  Definition doOp (o : op) (s : ast) : option ast :=
    match o with OCompute v => computeValue v s | OIntroduce v w => introduceAlias v w s | OFunction f => computeFunction f s end.
  Definition run (ops : list op) (s : ast) : option ast := fold_left (fun acc o => match acc with Some s => doOp o s | None => None end) ops (Some s).

  (** ** mergeWith, lines 659-688; the other analysis is given as the entries of its AliasSets with their sets *)
  Definition mergeEntry (acc : option ast) (e : nat * list nat) : option ast :=
    match acc with
    | None => None
    | Some s =>
        let '(k, set) := e in
        match find (fun x => mem x (akeys (sets s))) set with
        | Some x =>
            match afind x (sets s) with
            | Some b =>
                match insertAll b set s with
                | Some s1 => Some (mkA (heap s1) (boxes s1) (fold_left (fun m y => if mem y (akeys m) then m else aset y b m) set (sets s1)) (analyzed s1))
                | None => None
                end
            | None => None
            end
        | None =>
            let '(b, s1) := acquire s in
            match insertAll b set s1 with
            | Some s2 => Some (mkA (heap s2) (boxes s2) (aset k b (sets s2)) (analyzed s2))
            | None => None
            end
        end
    end.
  Definition mergeWith (entries : list (nat * list nat)) (otherAnalyzed : list nat) (s : ast) : option ast :=
    fold_left mergeEntry entries (Some (mkA (heap s) (boxes s) (sets s) (fold_left (fun l x => sinsert x l) otherAnalyzed (analyzed s)))).
  (** the entries of another analysis *)
  Definition entriesOf (o : ast) : list (nat * list nat) :=
    map (fun e => (fst e, match deref o (snd e) with Some l => iter l | None => [] end)) (sets o).

  (** ** JSON: getAsJson, lines 700-726, with [hasId v]: getMetaDataID(v) is not "-1"; the loading constructor, lines 98-149.
      Ids and function names are the values themselves, all found again. [None] for no set at all: at("AliasSets") is null (line 106) *)
  Definition getAsJson (hasId : nat -> bool) (s : ast) : list (list nat) * list nat :=
    (filter (fun l => negb (length l =? 0)) (map (fun e => filter hasId (iter (snd e))) (heap s)), analyzed s).
  Definition loadValue (b : nat) (acc : option ast) (v : nat) : option ast :=
    match acc with
    | Some s => insertAll b [v] (mkA (heap s) (boxes s) (aset v b (sets s)) (analyzed s))
    | None => None
    end.
  Definition loadSet (acc : option ast) (js : list nat) : option ast :=
    match acc with
    | Some s => let '(b, s1) := acquire s in fold_left (loadValue b) js (Some s1)
    | None => None
    end.
  Definition loadJson (js : list (list nat)) (fns : list nat) : option ast :=
    match js, fns with
    | [], _ | _, [] => None
    | _, _ => match fold_left loadSet js (Some emptyA) with
              | Some s => Some (mkA (heap s) (boxes s) (sets s) (fold_left (fun l x => sinsert x l) fns []))
              | None => None
              end
    end.
End Owner.
