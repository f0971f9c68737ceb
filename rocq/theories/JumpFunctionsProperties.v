(** C12: the three jump-function views agree. *)
From Coq Require Import List Bool.
From Verif Require Import Assoc TableModel JumpFunctionsModel JumpFunctionsProofs.
Import ListNotations.

(** For histories of additions and clears all views present the map of the
    last added functions. *)
Theorem C12_jump_function_views_agree :
  forall (N D EF : Type) (HN : EqDec N) (HD : EqDec D) (isAllTop : EF -> bool)
         (os : list (@jop N D EF)) d1 n d2 f,
    let J := jimpl_run isAllTop os in let m := jspec_run isAllTop os in
    (In (d1, f) (revl J n d2) <-> m d1 n d2 = Some f) /\
    (In (d2, f) (fwdl J d1 n) <-> m d1 n d2 = Some f) /\
    (In (d1, d2, f) (t_cells (jf_byTarget J n)) <-> m d1 n d2 = Some f).
Proof. exact (fun N D EF HN HD isAllTop os => jf_views isAllTop os). Qed.
Print Assumptions C12_jump_function_views_agree.

(** No view lists a key twice. *)
Theorem C12_jump_function_views_nodup :
  forall (N D EF : Type) (HN : EqDec N) (HD : EqDec D) (isAllTop : EF -> bool)
         (os : list (@jop N D EF)) n d1 d2,
    let J := jimpl_run isAllTop os in
    NoDup (akeys (revl J n d2)) /\ NoDup (akeys (fwdl J d1 n)) /\
    NoDup (map fst (t_cells (jf_byTarget J n))).
Proof. exact (fun N D EF HN HD isAllTop os => jf_views_nodup isAllTop os). Qed.
Print Assumptions C12_jump_function_views_nodup.

(** With removeFunction the agreement is lost: an unrelated entry disappears
    from lookupByTarget only. *)
Theorem C12_remove_keeps_views_consistent_refuted :
  exists (os : list (@jop nat nat nat)) (d1 n d2 : nat),
    let J := jimpl_run (fun _ => false) os in
    let J' := fst (jf_remove J d1 n d2) in
    jf_rev_get J' 5 n 6 = Some 42 /\ jf_fwd_get J' 5 n 6 = Some 42 /\
    jf_get J' 5 n 6 = None /\ (d1, d2) <> (5, 6).
Proof. exact jf_remove_breaks. Qed.
Print Assumptions C12_remove_keeps_views_consistent_refuted.

(** removeFunction's documented result ("False if it was not there anyway") is
    wrong as well. *)
Theorem C12_remove_result_refuted :
  exists (os : list (@jop nat nat nat)) (d1 n d2 : nat),
    let J := jimpl_run (fun _ => false) os in
    jf_get J d1 n d2 = None /\ snd (jf_remove J d1 n d2) = true.
Proof. exact jf_remove_reports. Qed.
Print Assumptions C12_remove_result_refuted.

Example C12_example :
  let J := jimpl_run (fun f => Nat.eqb f 0) [JAdd 1 10 2 7; JAdd 1 10 3 8; JAdd 1 10 2 9; JAdd 4 10 2 0] in
  (revl J 10 2, fwdl J 1 10, t_cells (jf_byTarget J 10)) =
  ([(1, 9)], [(2, 9); (3, 8)], [(1, 2, 9); (1, 3, 8)]).
Proof. reflexivity. Qed.
