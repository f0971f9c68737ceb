(** Model of /repo/include/phasar/DataFlow/IfdsIde/FlowFunctions.h ("FF.h").

    A container (std::set<D> by default) is a duplicate-free list; ==, < and
    hash of D are assumed to agree with equality.  A flow-function object is a
    term of [ff]; [computeTargets] returns the targets and the object after the
    call, since two of the legacy classes modify a member.  Sub-functions are
    shared_ptrs; sharing of a sub-object between several parents is not
    modelled (C16_calls_do_not_influence_each_other shows that the state of a
    flow function cannot be observed). *)
From Coq Require Import List Bool.
From Verif Require Import Assoc.
Import ListNotations.

Section FF.
  Context {D : Type} `{EqDec D}.

  Inductive ff :=
  | FIdentity                                   (* identityFlow, FF.h:163-172 *)
  | FLambda (F : D -> list D)                   (* lambdaFlow, FF.h:189-200 *)
  | FGen (gen from : D)                         (* GenFrom, FF.h:228-242; Gen, 978-998 *)
  | FGenIf (gen : D) (p : D -> bool)            (* GenFlowIf, FF.h:259-275 *)
  | FGenMany (gens : list D) (from : D)         (* GenMany, FF.h:300-315 *)
  | FKill (k : D)                               (* KillFlow, FF.h:339-348; Kill, 1054-1070 *)
  | FKillIf (p : D -> bool)                     (* KillFlowIf, FF.h:364-375; KillIf, 1074-1091 *)
  | FKillMany (ks : list D)                     (* KillMany, FF.h:404-415; KillMultiple, 1093-1110 *)
  | FKillAll                                    (* KillAllFF, FF.h:425-427; KillAll, 1112-1134 *)
  | FGenKillOthers (gen from : D)               (* GenFlowAndKillAllOthers, FF.h:458-472; GenAndKillAllOthers, 1138-1158 *)
  | FGenManyKillOthers (gens : list D) (from : D) (* GenManyAndKillAllOthers, FF.h:499-515 *)
  | FTransfer (gen from : D)                    (* TransferFlow, FF.h:550-567; Transfer, 1187-1205 *)
  | FUnion (f g : ff)                           (* UnionFlow, FF.h:594-613 *)
  | FZeroed (f : ff) (zero : D)                 (* ZeroedFlowFunction, FF.h:103-123 *)
  | FLegacyIdentity                             (* Identity, FF.h:878-899 *)
  | FCompose (fs : list ff)                     (* Compose, FF.h:922-968 *)
  | FLegacyGenIf (gens : list D) (p : D -> bool) (* GenIf, FF.h:1004-1032 *)
  | FGenAll (gens : list D) (zero : D)          (* GenAll, FF.h:1034-1053 *)
  | FGenAllKillOthers (gens : list D) (zero : D) (* GenAllAndKillAllOthers, FF.h:1160-1180 *)
  | FLegacyUnion (fs : list ff).                (* Union, FF.h:1207-1236 *)

  (** C.insert(begin, end) *)
  Definition insertAll (c : list D) (r : list D) : list D := fold_left (fun a y => sinsert y a) r c.

  (** detail::makeContainer, FF.h:126-138 *)
  Definition makeContainer (rng : list D) : list D := insertAll [] rng.

  (** factories that build a container from a range *)
  Definition generateManyFlows (rng : list D) (from : D) : ff := FGenMany (makeContainer rng) from.
  Definition killManyFlows (rng : list D) : ff := FKillMany (makeContainer rng).
  Definition generateManyFlowsAndKillAllOthers (rng : list D) (from : D) : ff :=
    FGenManyKillOthers (makeContainer rng) from.

  (** initializer list {x, g} *)
  Definition pair_set (x g : D) : list D := sinsert g [x].

  Fixpoint computeTargets (f : ff) (x : D) {struct f} : list D * ff :=
    match f with
    | FIdentity | FLegacyIdentity => ([x], f)
    | FLambda F => (F x, f)
    | FGen g w => (if eqb x w then pair_set x g else [x], f)
    | FGenIf g p => (if p x then pair_set x g else [x], f)
    | FGenMany gs w => (if eqb x w then sinsert x gs else [x], f)
    | FKill k => (if eqb x k then [] else [x], f)
    | FKillIf p => (if p x then [] else [x], f)
    | FKillMany ks => (if mem x ks then [] else [x], f)
    | FKillAll => ([], f)
    | FGenKillOthers g w => (if eqb x w then pair_set x g else [], f)
    | FGenManyKillOthers gs w => (if eqb x w then sinsert x gs else [], f)
    | FTransfer g w => (if eqb x w then pair_set x g else if eqb x g then [] else [x], f)
    | FUnion a b =>
        let (ra, a') := computeTargets a x in
        let (rb, b') := computeTargets b x in
        let (one, other) := if Nat.ltb (length ra) (length rb) then (rb, ra) else (ra, rb) in
        (insertAll one other, FUnion a' b')
    | FZeroed a z =>
        let (r, a') := computeTargets a x in
        (if eqb x z then sinsert z r else r, FZeroed a' z)
    | FCompose fs =>
        let (r, fs') :=
          (fix go (cur : list D) (l : list ff) : list D * list ff :=
             match l with
             | [] => (cur, [])
             | g :: l' =>
                 let (nxt, g') :=
                   fold_left (fun acc fact =>
                                let '(n, h) := acc in
                                (* the object may change between the facts; its
                                   new state is kept in g', the call uses the
                                   object found at loop entry, see the header *)
                                let (t, h') := computeTargets g fact in
                                (insertAll n t, h')) cur ([], g) in
                 let (r, l'') := go nxt l' in
                 (r, g' :: l'')
             end) [x] fs in
        (r, FCompose fs')
    | FLegacyGenIf gs p => (if p x then insertAll [x] gs else [x], f)
    | FGenAll gs z => if eqb x z then (sinsert x gs, FGenAll (sinsert x gs) z) else ([x], f)
    | FGenAllKillOthers gs z =>
        if eqb x z then (sinsert x gs, FGenAllKillOthers (sinsert x gs) z) else ([], f)
    | FLegacyUnion fs =>
        let (r, fs') :=
          (fix go (acc : list D) (l : list ff) : list D * list ff :=
             match l with
             | [] => (acc, [])
             | g :: l' =>
                 let (t, g') := computeTargets g x in
                 let (r, l'') := go (insertAll acc t) l' in
                 (r, g' :: l'')
             end) [] fs in
        (r, FLegacyUnion fs')
    end.

  (** Union's constructor, FF.h:1214-1222 *)
  Definition mkUnion (fs : list ff) : ff :=
    match fs with [] => FLegacyUnion [FLegacyIdentity] | _ => FLegacyUnion fs end.

  (** Compose::compose, FF.h:950-965; the identity is recognised by its address *)
  Definition isLegacyIdentity (f : ff) : bool :=
    match f with FLegacyIdentity => true | _ => false end.
  Definition composeFlows (fs : list ff) : ff :=
    match filter (fun f => negb (isLegacyIdentity f)) fs with
    | [] => FLegacyIdentity
    | [f] => f
    | v => FCompose v
    end.

  (** an object after a sequence of calls *)
  Definition after (f : ff) (xs : list D) : ff :=
    fold_left (fun g x => snd (computeTargets g x)) xs f.
End FF.
Arguments ff D : clear implicits.
