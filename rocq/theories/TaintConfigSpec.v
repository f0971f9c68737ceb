(** What a taint configuration describes. *)
From Coq Require Import String Ascii List Bool Arith.
From Verif Require Import TaintConfigModel.
Import ListNotations.

Section S.
  Variable m : modul.

  (** the values that a configuration has in a category *)
  Definition has (c : config) (k : cat) (v : val) : Prop :=
    match k with
    | CSource => In v (SourceValues c)
    | CSink => In v (SinkValues c)
    | CSanitizer => In v (SanitizerValues c)
    | CNone => False
    end.
  (** instruction [n] calls [f] *)
  Definition calls (n : nat) (f : string) : Prop :=
    exists fn i args, In fn (mFuncs m) /\ In i (fnInsts fn) /\ iId i = n /\ iKind i = KCall /\ iOps i = args ++ [VFun f].
  (** the address of [f] is used for calls only *)
  Definition onlyCalled (f : string) : Prop :=
    mConstUsers m f = [] /\
    forall fn i, In fn (mFuncs m) -> In i (fnInsts fn) -> In (VFun f) (iOps i) -> iKind i = KCall /\ exists args, iOps i = args ++ [VFun f] /\ ~ In (VFun f) args.

  (** the name stands for function [fn], by the debug information or, without any
      for it, by the symbol *)
  Definition stands (name : string) (s : subprogram) : Prop :=
    sDistinct s = true /\ sLinkage s <> EmptyString /\ (sName s = name \/ sLinkage s = name).
  Definition candidate (name : string) (fn : func) : Prop :=
    In fn (mFuncs m) /\
    ((exists s, In s (mSubs m) /\ stands name s /\ fnName fn = sLinkage s) \/
     ((forall s, In s (mSubs m) -> ~ stands name s) /\ fnName fn = name)).
  Definition uniqueNames : Prop := NoDup (map fnName (mFuncs m)).
  (** at most one function for the name, and it has not been removed *)
  Definition unambiguous (name : string) : Prop :=
    (forall s s', In s (mSubs m) -> In s' (mSubs m) -> stands name s -> stands name s' -> sLinkage s = sLinkage s') /\
    (forall s, In s (mSubs m) -> stands name s -> exists fn, In fn (mFuncs m) /\ fnName fn = sLinkage s).

  (** what the description of a function marks *)
  Definition marksFn (d : FunctionData) (k : cat) (v : val) : Prop :=
    exists fn, candidate (fdName d) fn /\
      ((exists i, v = VArg (fnName fn) i /\ i < fnArgs fn /\
          match k with
          | CSource => In i (fdSource d)
          | CSink => In i (fdSink d) \/ fdAllSink d = true
          | CSanitizer => In i (fdSanitizer d)
          | CNone => False
          end) \/
       (fdRet d = k /\ k <> CNone /\ exists n, v = VInst n /\ calls n (fnName fn))).
  (** what the description of a local variable marks *)
  Definition marksVar (d : VariableData) (k : cat) (v : val) : Prop :=
    vdCat d = k /\ k <> CNone /\
    exists fn i, In fn (mFuncs m) /\ In i (fnInsts fn) /\ iKind i = KDeclare (vdName d) (vdLine d) v.
End S.

(** equal up to upper and lower case *)
Definition sameLetter (a b : ascii) : Prop :=
  a = b \/ exists k, k < 26 /\
    ((nat_of_ascii a = nat_of_ascii "A" + k /\ nat_of_ascii b = nat_of_ascii "a" + k) \/
     (nat_of_ascii a = nat_of_ascii "a" + k /\ nat_of_ascii b = nat_of_ascii "A" + k)).
Inductive sameText : string -> string -> Prop :=
| same_empty : sameText EmptyString EmptyString
| same_letter a b s t : sameLetter a b -> sameText s t -> sameText (String a s) (String b t).

(** how a configuration is written *)
Definition writeFn (d : FunctionData) : jfunc :=
  mkJF (Some (JStr (fdName d))) (match fdRet d with CNone => None | c => Some (JStr (to_string c)) end)
       (Some (mkJP (Some (map JNum (fdSource d)))
                   (Some (map JNum (fdSink d) ++ (if fdAllSink d then [JStr "all"] else [])))
                   (Some (map JNum (fdSanitizer d))))).
Definition writeVar (d : VariableData) : jvar :=
  mkJV (Some (JNum (vdLine d))) (Some (JStr (vdName d))) (Some (JStr (vdScope d)))
       (match vdCat d with CNone => None | c => Some (JStr (to_string c)) end).

(** the parameters of the callee that a configuration marks, with the arguments
    of the call *)
Definition argOf (marked : val -> Prop) (f : func) (args : list val) (v : val) : Prop :=
  exists k, k < fnArgs f /\ marked (VArg (fnName f) k) /\ nth_error args k = Some v.
