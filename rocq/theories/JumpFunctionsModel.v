(** Model of psr::JumpFunctions,
    /repo/include/phasar/DataFlow/IfdsIde/Solver/JumpFunctions.h *)
From Coq Require Import List Bool.
From Verif Require Import Assoc TableModel.
Import ListNotations.

Section JumpFunctions.
  Context {N D EF : Type} `{EqDec N} `{EqDec D}.
  (** llvm::isa<AllTop<l_t>>(EdgeFunc), JumpFunctions.h:85 *)
  Variable isAllTop : EF -> bool.

  (** JumpFunctions.h:48-62, the three redundant tables *)
  Record jumpfns := mkJF {
    jf_rev : table N D (list (D * EF));     (* NonEmptyReverseLookup *)
    jf_fwd : table D N (list (D * EF));     (* NonEmptyForwardLookup *)
    jf_byt : list (N * table D D EF)        (* NonEmptyLookupByTargetNode *)
  }.

  Definition jf_empty : jumpfns := mkJF t_empty t_empty [].

  (** addFunction, JumpFunctions.h:77-121.  [Table::get] creates the missing
      vector, the find_if/emplace_back idiom is [aset]. *)
  Definition jf_add (J : jumpfns) (d1 : D) (n : N) (d2 : D) (f : EF) : jumpfns :=
    if isAllTop f then J else
    mkJF
      (t_insert (jf_rev J) n d2 (aset d1 f (t_get [] (jf_rev J) n d2)))
      (t_insert (jf_fwd J) d1 n (aset d2 f (t_get [] (jf_fwd J) d1 n)))
      (aset n (t_insert (afindd [] n (jf_byt J)) d1 d2 f) (jf_byt J)).

  (** reverseLookup, JumpFunctions.h:128-135 *)
  Definition jf_reverse (J : jumpfns) (n : N) (d2 : D) : option (list (D * EF)) :=
    t_lookup (jf_rev J) n d2.

  (** forwardLookup, JumpFunctions.h:142-149 *)
  Definition jf_forward (J : jumpfns) (d1 : D) (n : N) : option (list (D * EF)) :=
    t_lookup (jf_fwd J) d1 n.

  (** lookupByTarget, JumpFunctions.h:157-159 (the creation of an empty table
      by operator[] is not observable through the modelled interface) *)
  Definition jf_byTarget (J : jumpfns) (n : N) : table D D EF :=
    afindd [] n (jf_byt J).

  (** removeFunction, JumpFunctions.h:179-199: note that the last statement
      erases the whole table of the target node. *)
  Definition jf_remove (J : jumpfns) (d1 : D) (n : N) (d2 : D) : jumpfns * bool :=
    (mkJF
      (t_insert (jf_rev J) n d2 (adel d1 (t_get [] (jf_rev J) n d2)))
      (t_insert (jf_fwd J) d1 n (adel d2 (t_get [] (jf_fwd J) d1 n)))
      (adel n (jf_byt J)),
     match afind n (jf_byt J) with Some _ => true | None => false end).

  (** clear, JumpFunctions.h:204-208 *)
  Definition jf_clear (_ : jumpfns) : jumpfns := jf_empty.
End JumpFunctions.
Arguments jumpfns : clear implicits.
