(** Model of the type-state analysis' values, edge functions and the five
    automata shipped with it:
    /repo/include/phasar/PhasarLLVM/DataFlow/IfdsIde/Problems/IDETypeStateAnalysis.h
    and /repo/lib/PhasarLLVM/DataFlow/IfdsIde/Problems/TypeStateDescriptions/.

    States are the numbers the C++ enumerations give them; a table access out of
    bounds is undefined behaviour, [None].  Call sites are numbered. *)
From Coq Require Import String.
From Coq Require Import Bool List Arith.
From Verif Require Import Assoc.
Import ListNotations.
Open Scope string_scope.
Open Scope nat_scope.

#[global] Instance EqDec_string : EqDec string := string_dec.

(** TypeStateDescription.h; [states]: the enumerators; [next]: the overload of
    getNextState that takes the call site *)
Record tsd := mkTsd {
  states : list nat; top : nat; bot : nat; uninit : nat; err : nat;
  isFactory : string -> bool; isConsuming : string -> bool;
  consumerIdx : string -> list nat;
  next : string -> nat -> nat -> option nat }.

(** ** edge functions, IDETypeStateAnalysis.h:194-345 *)
Inductive tsef :=
| Id | AllBottom | AllTop
| Const (v : nat)                       (* TSConstant *)
| TS (tok : string) (cs : nat)          (* TSEdgeFunction *)
| Comp (f g : tsef).                    (* TSEdgeFunctionComposer *)

Section D.
  Variable d : tsd.
  Fixpoint apply (f : tsef) (x : nat) : option nat :=
    match f with
    | Id => Some x
    | AllBottom => Some (bot d)
    | AllTop => Some (top d)
    | Const v => Some v
    | TS tok cs => next d tok cs (if x =? top d then uninit d else x)    (* :228-239 *)
    | Comp f g => match apply f x with Some y => apply g y | None => None end
    end.
  Definition isConstant (f : tsef) : bool := match f with AllBottom | AllTop | Const _ => true | _ => false end.
  (** EdgeFunctionUtils.h:122-133 *)
  Definition defaultCompose (f g : tsef) : option tsef :=
    match g with Id => Some f | _ => if isConstant g then Some g else None end.
  (** EdgeFunctionUtils.h:33, 62-66, 101-105, 242-252; IDETypeStateAnalysis.h:241-248, 293-310 *)
  Fixpoint compose (f g : tsef) : option tsef :=
    match f with
    | Id => Some g
    | AllBottom => Some (if isConstant g then g else AllBottom)
    | AllTop => Some (match g with Id => AllTop | _ => g end)
    | Const v =>
        match defaultCompose f g with
        | Some h => Some h
        | None => match apply g v with
                  | None => None
                  | Some r => Some (if r =? v then f else if r =? bot d then AllBottom else Const r)
                  end
        end
    | TS _ _ => Some (match defaultCompose f g with Some h => h | None => Comp f g end)
    | Comp a b => match defaultCompose f g with
                  | Some h => Some h
                  | None => match compose b g with Some bg => compose a bg | None => None end
                  end
    end.

  Fixpoint efEqb (f g : tsef) : bool :=
    match f, g with
    | Id, Id | AllBottom, AllBottom | AllTop, AllTop => true
    | Const v, Const w => v =? w
    | TS t c, TS u e => (c =? e) && eqb t u
    | Comp a b, Comp a' b' => efEqb a a' && efEqb b b'
    | _, _ => false
    end.
  (** EdgeFunctionUtils.h:412-428; without JoinLatticeTraits the identity falls
      through, with the same result in all callers here *)
  Definition defaultJoin (f g : tsef) : option tsef :=
    match g with
    | AllBottom => Some g
    | AllTop => Some f
    | _ => if efEqb g f then Some f else None
    end.
  (** IDETypeStateAnalysis.h:207-217, 250-257, 312-335 *)
  Definition joinNonId (f g : tsef) : tsef :=
    match f with
    | AllBottom => f
    | AllTop => g
    | Const v =>
        match defaultJoin f g with
        | Some h => h
        | None => match g with
                  | Const w => if (w =? v) || (w =? top d) then f else if v =? top d then g else AllBottom
                  | _ => AllBottom
                  end
        end
    | _ => match defaultJoin f g with Some h => h | None => AllBottom end
    end.
  (** EdgeIdentity::join, EdgeFunctionUtils.h:452-465 *)
  Definition joinEF (f g : tsef) : tsef :=
    match f with
    | Id => match g with Id | AllTop => Id | AllBottom => g | _ => joinNonId g Id end
    | _ => joinNonId f g
    end.

  (** IDETypeStateAnalysis::join, :484-495 *)
  Definition join (l r : nat) : nat :=
    if l =? r then l else if l =? top d then r else if r =? top d then l else bot d.

  (** getCallToRetEdgeFunction, :431-467.  [zero]: CallNode is the zero value;
      [ret]: RetSiteNode is the call site; [same]: CallNode == RetSiteNode;
      [aliased i]: CallNode is among the aliases and allocas of argument i *)
  Fixpoint ctrEdge (cs : nat) (zero ret same : bool) (aliased : nat -> bool) (callees : list string) : option tsef :=
    match callees with
    | [] => Some Id
    | c :: r =>
        if isFactory d c && zero && ret then
          match next d c cs (uninit d) with Some s => Some (Const s) | None => None end
        else if isConsuming d c && existsb (fun i => same && aliased i) (consumerIdx d c) then Some (TS c cs)
        else ctrEdge cs zero ret same aliased r
    end.
End D.

(** ** the automata *)
Definition look (tbl : list (list nat)) (tok st : nat) : option nat :=
  match nth_error tbl tok with Some row => nth_error row st | None => None end.
Definition smem (s : string) (l : list string) : bool := existsb (eqb s) l.
(** position in a list of names, STAR otherwise (funcNameToToken) *)
Fixpoint tokOf (l : list (string * nat)) (star : nat) (s : string) : nat :=
  match l with [] => star | (n, t) :: r => if eqb s n then t else tokOf r star s end.

(** CSTDFILEIOTypeStateDescription.h:21-28, .cpp:38-130: UNINIT 0, OPENED 1, CLOSED 2, ERROR 3, BOT 4, TOP 42 *)
Definition fileDelta : list (list nat) :=
  [ [1;1;1;3;1];      (* FOPEN *)
    [3;2;3;3;4];      (* FCLOSE *)
    [3;1;3;3;4] ].    (* STAR *)
Definition fileFuncs : list (string * nat) :=
  [("fclose",0); ("fread",3); ("fwrite",3); ("fgetc",0); ("fgetwc",0); ("fgets",2); ("getc",0); ("getwc",0);
   ("_IO_getc",0); ("ungetc",1); ("ungetwc",1); ("fputc",1); ("fputwc",1); ("fputs",1); ("putc",1); ("putwc",1);
   ("_IO_putc",1); ("fprintf",0); ("fwprintf",0); ("vfprintf",0); ("vfwprintf",0); ("__isoc99_fscanf",0);
   ("fscanf",0); ("fwscanf",0); ("vfscanf",0); ("vfwscanf",0); ("fflush",0); ("fseek",0); ("ftell",0);
   ("rewind",0); ("fgetpos",0); ("fsetpos",0); ("fileno",0)].
Definition fileFactories : list string := ["fopen"; "fdopen"].
Definition consIdx (l : list (string * nat)) (f : string) : list nat :=
  match find (fun p => eqb f (fst p)) l with Some p => [snd p] | None => [] end.
Definition fileNext (tok : string) (s : nat) : option nat :=
  if smem tok fileFactories || smem tok (map fst fileFuncs)
  then look fileDelta (tokOf [("fopen",0); ("fdopen",0); ("fclose",1)] 2 tok) s
  else Some 4.
Definition fileIO : tsd :=
  mkTsd [42;0;1;2;3;4] 42 4 0 3 (fun f => smem f fileFactories) (fun f => smem f (map fst fileFuncs))
        (consIdx fileFuncs) (fun tok _ s => fileNext tok s).
(** JoinLatticeTraits<CSTDFILEIOState>::join, CSTDFILEIOTypeStateDescription.h:38-47 *)
Definition fileTraitsJoin (l r : nat) : nat :=
  if (l =? 42) || (r =? 4) then r else if (l =? 4) || (r =? 42) then l else 4.

(** OpenSSLEVPKDFDescription: UNINIT 0, KDF_FETCHED 1, ERROR 2, BOT 3 *)
Definition kdfDelta : list (list nat) := [ [1;2;2;1]; [2;0;2;3]; [2;1;2;3] ].
Definition kdf : tsd :=
  mkTsd [42;0;1;2;3] 42 3 0 2 (fun f => smem f ["EVP_KDF_fetch"]) (fun f => smem f ["EVP_KDF_free"])
    (consIdx [("EVP_KDF_free",0)])
    (fun tok _ s => if smem tok ["EVP_KDF_fetch"; "EVP_KDF_free"]
                    then look kdfDelta (tokOf [("EVP_KDF_fetch",0); ("EVP_KDF_free",1)] 2 tok) s else Some 3).

(** OpenSSLEVPKDFCTXDescription: BOT 0, CTX_ATTACHED 1, PARAM_INIT 2, DERIVED 3,
    ERROR 4, UNINIT 5.  [fetched cs]: the KDF analysis found its argument in
    state KDF_FETCHED *)
Definition ctxDelta : list (list nat) :=
  [ [1;1;1;1;4;1]; [4;2;2;2;4;4]; [4;4;3;3;4;4]; [4;5;5;5;4;4]; [4;1;2;3;4;4] ].
Definition ctxTok : list (string * nat) :=
  [("EVP_KDF_CTX_new",0); ("EVP_KDF_CTX_set_params",1); ("EVP_KDF_derive",2); ("EVP_KDF_CTX_free",3)].
Definition kdfCtx (fetched : nat -> bool) : tsd :=
  mkTsd [42;0;1;2;3;4;5] 42 0 5 4 (fun f => smem f ["EVP_KDF_CTX_new"])
    (fun f => smem f ["EVP_KDF_CTX_set_params"; "EVP_KDF_derive"; "EVP_KDF_CTX_free"])
    (consIdx [("EVP_KDF_CTX_set_params",0); ("EVP_KDF_derive",0); ("EVP_KDF_CTX_free",0)])
    (fun tok cs s =>
       if smem tok (map fst ctxTok) then
         match look ctxDelta (tokOf ctxTok 4 tok) s with
         | None => None
         | Some r => if (tokOf ctxTok 4 tok =? 0) && negb (fetched cs) then Some 4 else Some r
         end
       else Some 0).

(** OpenSSLSecureHeapDescription: BOT 0, UNINIT 1, ALLOCATED 2, ZEROED 3, FREED 4,
    ERROR 5.  [ready cs]: the heap is initialised there *)
Definition heapDelta : list (list nat) :=
  [ [2;2;2;2;2;2]; [3;3;3;3;3;3]; [5;5;5;4;5;5]; [5;5;4;4;5;5]; [0;1;2;3;4;5] ].
Definition heapTok : list (string * nat) :=
  [("CRYPTO_secure_malloc",0); ("CRYPTO_secure_zalloc",1); ("CRYPTO_secure_free",2); ("CRYPTO_secure_clear_free",3)].
Definition secureHeap (ready : nat -> bool) : tsd :=
  mkTsd [42;0;1;2;3;4;5] 42 0 1 5 (fun f => smem f ["CRYPTO_secure_malloc"; "CRYPTO_secure_zalloc"])
    (fun f => smem f ["CRYPTO_secure_free"; "CRYPTO_secure_clear_free"])
    (consIdx [("CRYPTO_secure_free",0); ("CRYPTO_secure_clear_free",0)])
    (fun tok cs s =>
       if smem tok (map fst heapTok) then
         if negb (ready cs) then Some 5 else look heapDelta (tokOf heapTok 4 tok) s
       else Some 5).

(** OpenSSLSecureMemoryDescription: BOT 0, ZEROED 1, FREED 2, ERROR 3, ALLOCATED 4.
    The table has room for 6 x 7 entries; what has no initialiser is 0 *)
Definition memDelta : list (list nat) :=
  [ [4;4;4;3;4;0;0]; [1;1;1;3;1;0;0]; [3;2;3;3;3;0;0]; [0;1;3;3;1;0;0]; [0;4;2;3;4;0;0]; [0;0;0;0;0;0;0] ].
Definition memTok : list (string * nat) :=
  [("CRYPTO_malloc",0); ("CRYPTO_zalloc",1); ("CRYPTO_free",2); ("OPENSSL_cleanse",3)].
Definition secureMemory : tsd :=
  mkTsd [42;0;1;2;3;4] 42 0 0 3 (fun f => smem f ["CRYPTO_malloc"; "CRYPTO_zalloc"])
    (fun f => smem f ["CRYPTO_free"; "OPENSSL_cleanse"])
    (consIdx [("CRYPTO_free",0); ("OPENSSL_cleanse",0)])
    (fun tok _ s => if tokOf memTok 4 tok =? 4 then Some 0 else look memDelta (tokOf memTok 4 tok) s).
