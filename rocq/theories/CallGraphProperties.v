(** C33, C34: the call graph data structure and its JSON form. *)
From Coq Require Import String List Bool Arith NArith Lia Permutation.
From Verif Require Import Assoc CallGraphModel CallGraphSpec CallGraphProofs.
Import ListNotations.
Open Scope nat_scope.

(** ** C33 *)
(** Every legal history runs without undefined behaviour, and afterwards the queries
    return exactly the edges added, in order and with multiplicity. *)
Theorem C33_queries_exact : forall asserts ops, legal asserts ops emptyCG ->
  exists s, run asserts ops emptyCG = Some s
    /\ (forall n, getCalleesOfCallAt n s = Some (calleesIn (edgesOf ops) n))
    /\ (forall f, getCallersOf f s = Some (callersIn (edgesOf ops) f)).
Proof.
  intros a ops L. destruct (run_inv a ops _ _ _ _ inv_empty L) as [s [fs [ns [R [I _]]]]]. exists s. split; [exact R|].
  split; [intro n; exact (inv_callees _ _ _ _ n I)|intro f; exact (inv_callers _ _ _ _ f I)].
Qed.
Print Assumptions C33_queries_exact.

(** [f] is a callee at [n] exactly as often as [n] is a caller of [f] *)
Theorem C33_mutually_inverse : forall asserts ops s n f cs ns, legal asserts ops emptyCG -> run asserts ops emptyCG = Some s ->
  getCalleesOfCallAt n s = Some cs -> getCallersOf f s = Some ns -> occ f cs = occ n ns.
Proof.
  intros a ops s n f cs ns L R C D. destruct (C33_queries_exact a ops L) as [s' [R' [H1 H2]]].
  rewrite R in R'. injection R' as <-. rewrite H1 in C. rewrite H2 in D. injection C as <-. injection D as <-. apply occ_inverse.
Qed.
Print Assumptions C33_mutually_inverse.

(** the vertices are those registered or mentioned in an edge, each once *)
Theorem C33_vertices : forall asserts ops s, legal asserts ops emptyCG -> run asserts ops emptyCG = Some s ->
  NoDup (getAllVertexFunctions s) /\ (forall f, In f (getAllVertexFunctions s) <-> In f (flat_map funOf ops))
  /\ NoDup (getAllVertexCallSites s) /\ (forall n, In n (getAllVertexCallSites s) <-> In n (flat_map instOf ops))
  /\ size s = length (getAllVertexFunctions s).
Proof.
  intros a ops s L R. destruct (run_inv a ops _ _ _ _ inv_empty L) as [s' [fs [ns [R' [I [HF HN]]]]]].
  rewrite R in R'. injection R' as <-.
  split; [apply (iNDf _ _ _ _ I)|]. split; [intro f; unfold getAllVertexFunctions; rewrite (iF _ _ _ _ I), HF; cbn; tauto|].
  split; [apply (iNDc _ _ _ _ I)|]. split; [intro n; unfold getAllVertexCallSites; rewrite (iN _ _ _ _ I), HN; cbn; tauto|].
  unfold size, getAllVertexFunctions, akeys. now rewrite map_length.
Qed.
Print Assumptions C33_vertices.

(** the pointer to a call-site vertex stays valid for its call site whatever else is added *)
Theorem C33_call_site_pointers_stable : forall asserts ops n s s', run asserts ops (snd (addInstructionVertex n s)) = Some s' ->
  getInstVertexOrNull n s' = Some (fst (addInstructionVertex n s)).
Proof.
  intros a ops n s s' R. apply (run_stable a ops _ _ _ _ R). unfold addInstructionVertex.
  destruct (afind n (calleesAt s)) eqn:E; cbn; [assumption|]. apply afind_aset_eq.
Qed.
Print Assumptions C33_call_site_pointers_stable.

(** reserving for the number of distinct functions makes any history legal *)
Theorem C33_reserve_suffices : forall asserts k ops,
  (forall o, In o ops -> match o with AddFun _ | AddInst _ | Edge _ _ => True | _ => False end) ->
  length (nodup Nat.eq_dec (flat_map funOf ops)) <= k -> legal asserts (Reserve k :: ops) emptyCG.
Proof.
  intros a k ops Sm K. cbn [legal]. split; [right; reflexivity|]. intros s' E.
  destruct (step_inv a (Reserve k) _ _ _ _ inv_empty (or_intror eq_refl)) as [s1 [E1 I1]]. rewrite E in E1. injection E1 as <-.
  refine (legal_simple a k (flat_map funOf ops) ops _ _ _ _ I1 Sm _ _ K _); [intros x []|apply incl_refl|].
  cbn [step] in E. injection E as <-. unfold reserve. cbn [funCap emptyCG]. destruct (k <=? 0) eqn:Z; [|reflexivity].
  apply Nat.leb_le in Z. cbn. lia.
Qed.
Print Assumptions C33_reserve_suffices.

Example C33_case : legal false [Reserve 2; AddFun 1; Edge 10 1; AddInst 11; EdgeI 11 1 2; Edge 10 1; EdgeF 11 1 (1,0)] emptyCG.
Proof.
  cbn. unfold room. repeat (split; [cbn; auto; try lia|intros s' E; injection E as <-]); auto; cbn; auto.
Qed.
Example C33_case_run : exists s, run false [Reserve 2; AddFun 1; Edge 10 1; AddInst 11; EdgeI 11 1 2; Edge 10 1; EdgeF 11 1 (1,0)] emptyCG = Some s
  /\ getCalleesOfCallAt 10 s = Some [1;1] /\ getCallersOf 1 s = Some [10;10;11] /\ getCalleesOfCallAt 11 s = Some [2;1] /\ getCalleesOfCallAt 12 s = Some [].
Proof. eexists. split; [vm_compute; reflexivity|]. repeat split. Qed.

(** More functions than reserved: without assertions the vertices are reallocated and
    the next query reads freed memory. *)
Theorem C33_capacity_refuted : exists ops s f, run false ops emptyCG = Some s /\ run true ops emptyCG = None
  /\ In f (flat_map funOf ops) /\ getCallersOf f s = None.
Proof.
  exists [Reserve 1; Edge 10 1; AddFun 2]. eexists. exists 1. split; [vm_compute; reflexivity|]. repeat split. cbn. auto.
Qed.
Print Assumptions C33_capacity_refuted.
(** So does a second, larger reserve, even in a build with assertions. *)
Theorem C33_second_reserve_refuted : exists ops s, run true ops emptyCG = Some s /\ getCallersOf 1 s = None.
Proof. exists [Reserve 1; Edge 10 1; Reserve 2]. eexists. split; [vm_compute; reflexivity|]. reflexivity. Qed.
Print Assumptions C33_second_reserve_refuted.

(** ** C34 *)
(** Whatever the iteration orders of the hash maps and of the JSON object: the
    deserialised graph has the same functions, the same callers of each function in the
    same order, and the same callees (with multiplicity) at each call site. The ids must
    fit into 32 bits and the getters must invert the id printers on the graph. *)
Theorem C34_json_roundtrip_partial :
  forall asserts ops s fid iid getF getI ents m m' d d',
  legal asserts ops emptyCG -> run asserts ops emptyCG = Some s ->
  (forall f, In f (getAllVertexFunctions s) -> f <> 0 /\ getF (fid f) = f) ->
  (forall n f, In (n, f) (edgesOf ops) -> (iid n < 4294967296)%N /\ getI (iid n) = n) ->
  Permutation (map (fun e => (fst e, Some (snd e))) ents) (entries s) ->
  toJson (toData fid iid ents) = DObj m -> Permutation m m' -> fromJson (DObj m') = Some d -> Permutation d d' ->
  exists s', deserialize asserts getF getI d' = Some s'
    /\ (forall f, In f (getAllVertexFunctions s') <-> In f (getAllVertexFunctions s))
    /\ (forall f, getCallersOf f s' = getCallersOf f s)
    /\ (forall n, exists l l', getCalleesOfCallAt n s = Some l /\ getCalleesOfCallAt n s' = Some l' /\ Permutation l l').
Proof.
  intros a ops s fid iid getF getI ents m m' d d' L R HF HI Pe Hj Pm Hd Pd.
  destruct (run_inv a ops _ _ _ _ inv_empty L) as [s0 [fs [ns [R' [I _]]]]]. rewrite R in R'. injection R' as <-. cbn [app] in I.
  assert (HI' : forall n f, In (n, f) (edgesOf ops) -> getI (u32 (iid n)) = n).
  { intros n f H. destruct (HI n f H) as [B E]. unfold u32. now rewrite N.mod_small. }
  destruct (roundtrip a getF getI fid iid s _ _ _ ents m m' d d' I HF HI' Pe Hj Pm Hd Pd) as [s' [es' [fs' [ns' [E [I' [HC Hf]]]]]]].
  exists s'. split; [exact E|]. split; [intro f; unfold getAllVertexFunctions; rewrite (iF _ _ _ _ I'), (iF _ _ _ _ I); apply Hf|].
  split; [intro f; rewrite (inv_callers _ _ _ _ f I'), (inv_callers _ _ _ _ f I); f_equal; apply HC|].
  intro n. exists (calleesIn (edgesOf ops) n), (calleesIn es' n). split; [exact (inv_callees _ _ _ _ n I)|]. split; [exact (inv_callees _ _ _ _ n I')|].
  apply Permutation_sym. now apply callees_perm.
Qed.
Print Assumptions C34_json_roundtrip_partial.

(** Deserialising never runs out of capacity, whatever the document says. *)
Theorem C34_deserialize_total : forall asserts getF getI d, exists s, deserialize asserts getF getI d = Some s.
Proof. intros a getF getI d. destruct (deser_inv a getF getI d) as [s [fs [ns [E _]]]]. eauto. Qed.
Print Assumptions C34_deserialize_total.

Definition exF (f : nat) : string := if f =? 1 then "f"%string else "g"%string.
Definition exG (s : string) : nat := if string_dec s "f" then 1 else if string_dec s "g" then 2 else 0.
Definition exOps := [Reserve 2; AddFun 1; Edge 10 2; Edge 11 2; Edge 10 2].
Example C34_case : exists s, run true exOps emptyCG = Some s
  /\ toJson (toData exF N.of_nat [(2,[10;11;10]); (1,[])]) = DObj [("g"%string, JArr [10;11;10]%N); ("f"%string, JNull)]
  /\ entries s = [(1, Some []); (2, Some [10;11;10])]
  /\ exists s', deserialize true exG N.to_nat [("f"%string,[]); ("g"%string, [10;11;10]%N)] = Some s' /\ getCallersOf 2 s' = Some [10;11;10] /\ getAllVertexFunctions s' = [1;2].
Proof.
  eexists. split; [vm_compute; reflexivity|]. split; [reflexivity|]. split; [reflexivity|].
  eexists. split; [vm_compute; reflexivity|]. split; reflexivity.
Qed.

(** the graph without functions serialises to null, which cannot be read back *)
Theorem C34_empty_graph_refuted : forall fid iid, entries emptyCG = [] /\ toJson (toData fid iid []) = DNull /\ fromJson DNull = None.
Proof. repeat split. Qed.
Print Assumptions C34_empty_graph_refuted.

(** call sites without callees are lost *)
Theorem C34_lost_call_site_refuted : exists s ents d s', run true [Reserve 1; AddFun 1; AddInst 10] emptyCG = Some s
  /\ map (fun e => (fst e, Some (snd e))) ents = entries s /\ fromJson (toJson (toData exF N.of_nat ents)) = Some d
  /\ deserialize true exG N.to_nat d = Some s' /\ In 10 (getAllVertexCallSites s) /\ ~ In 10 (getAllVertexCallSites s').
Proof.
  eexists. exists [(1,[])]. eexists. eexists. split; [vm_compute; reflexivity|]. split; [reflexivity|]. split; [vm_compute; reflexivity|].
  split; [vm_compute; reflexivity|]. cbn. intuition.
Qed.
Print Assumptions C34_lost_call_site_refuted.

(** ids of 2^32 and more are truncated *)
Theorem C34_wide_ids_refuted : exists iid ents d, fromJson (toJson (toData exF iid ents)) = Some d
  /\ (forall x y, iid x = iid y -> x = y) /\ ents = [(1,[10])] /\ d = [("f"%string,[10%N])] /\ iid 10 <> 10%N.
Proof.
  exists (fun n => (N.of_nat n + 4294967296)%N), [(1,[10])], [("f"%string,[10%N])].
  split; [vm_compute; reflexivity|]. split; [intros x y H; lia|]. repeat split. vm_compute. discriminate.
Qed.
Print Assumptions C34_wide_ids_refuted.

(** an unknown call-site id is reported but becomes a call from nullptr *)
Theorem C34_unknown_call_site_refuted : exists getI s, deserialize true exG getI [("f"%string,[7%N])] = Some s
  /\ getI 7%N = 0 /\ getCallersOf 1 s = Some [0] /\ getCalleesOfCallAt 0 s = Some [1].
Proof. exists (fun _ => 0). eexists. split; [vm_compute; reflexivity|]. repeat split. Qed.
Print Assumptions C34_unknown_call_site_refuted.
