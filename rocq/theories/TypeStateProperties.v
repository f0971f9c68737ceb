(** C31: the type-state analysis runs its automaton. *)
From Coq Require Import String.
From Coq Require Import Bool List Arith Lia.
From Verif Require Import Assoc TypeStateModel TypeStateSpec TypeStateProofs.
Import ListNotations.
Open Scope nat_scope.

(** ** every look-up stays inside the table *)
Theorem C31_tables : forall fetched ready,
  table_ok fileIO /\ table_ok kdf /\ table_ok (kdfCtx fetched) /\ table_ok (secureHeap ready) /\ table_ok secureMemory.
Proof.
  intros. split; [apply fileIO_ok|]. split; [apply kdf_ok|]. split; [apply kdfCtx_ok|].
  split; [apply secureHeap_ok|apply secureMemory_ok].
Qed.
Print Assumptions C31_tables.

(** ... whatever edge functions are built and whatever they are applied to *)
Theorem C31_no_undefined_behaviour : forall d, table_ok d ->
  (forall f x, wf d f -> In x (states d) -> exists y, apply d f x = Some y /\ In y (states d)) /\
  (forall f g, wf d f -> wf d g -> exists h, compose d f g = Some h /\ wf d h).
Proof. intros d OK. split; intros; [now apply apply_total|now apply compose_total]. Qed.
Print Assumptions C31_no_undefined_behaviour.

(** ** composition *)
(** The edge function of a path of calls is the automaton, started in the
    uninitialised state if nothing is known. *)
Theorem C31_runs_automaton : forall d w, table_ok d -> w <> [] ->
  exists h, seqEF d Id w = Some h /\
    forall x, In x (states d) -> apply d h x = run d w (if x =? top d then uninit d else x).
Proof.
  intros d w OK N. destruct (seqEF_run_id d OK w) as [h [H E]]. exists h. split; auto. intros x Ix. now apply E.
Qed.
Print Assumptions C31_runs_automaton.

Example C31_open_close_write :
  exists h, seqEF fileIO Id [("fopen",1); ("fwrite",2); ("fclose",3); ("fwrite",4)]%string = Some h
         /\ apply fileIO h 42 = Some (err fileIO)
         /\ apply fileIO h (uninit fileIO) = Some (err fileIO).
Proof. eexists. split; [vm_compute; reflexivity|]. split; reflexivity. Qed.

(** In general composition is exact as long as neither AllTop nor AllBottom comes
    first, and never below the composition if AllTop does not. *)
Theorem C31_compose : forall d f g h x y z, table_ok d -> wf d f -> wf d g -> noTop f -> In x (states d) ->
  compose d f g = Some h -> apply d f x = Some y -> apply d g y = Some z ->
  exists z', apply d h x = Some z' /\ le d z z' /\ (noBot f -> z' = z).
Proof. intros d f g h x y z OK. now apply compose_sound. Qed.
Print Assumptions C31_compose.
Example C31_compose_case :
  wf fileIO (Const 0) /\ noTop (Const 0) /\ noBot (Const 0) /\
  compose fileIO (Const 0) (TS "fopen" 1)%string = Some (Const 1).
Proof. cbn. auto 10. Qed.

(** After a join to AllBottom later events are ignored: releasing unzeroed memory
    is an error for the automaton, the composed edge function says bottom. *)
Theorem C31_compose_bottom_refuted : exists d tok cs x, table_ok d /\ In x (states d) /\ isConsuming d tok = true /\
  (exists h, compose d AllBottom (TS tok cs) = Some h /\ apply d h x = Some (bot d)) /\
  next d tok cs (bot d) = Some (err d) /\ err d <> bot d.
Proof.
  exists secureMemory, "CRYPTO_free"%string, 0, 1. split; [apply secureMemory_ok|]. split; [cbn; tauto|].
  split; [reflexivity|]. split; [eexists; split; reflexivity|]. split; [reflexivity|discriminate].
Qed.
Print Assumptions C31_compose_bottom_refuted.

(** ** the error state *)
Theorem C31_error_sticks : forall fetched ready,
  let api d t := isFactory d t || isConsuming d t in
  errorSticks fileIO (api fileIO) /\ errorSticks kdf (api kdf) /\ errorSticks (kdfCtx fetched) (api (kdfCtx fetched))
  /\ errorSticks secureMemory (api secureMemory) /\ errorSticks (secureHeap ready) (isConsuming (secureHeap ready)).
Proof.
  intros. split; [apply fileIO_sticks|]. split; [apply kdf_sticks|]. split; [apply kdfCtx_sticks|].
  split; [apply secureMemory_sticks|apply secureHeap_sticks].
Qed.
Print Assumptions C31_error_sticks.
Example C31_error_sticks_case : isConsuming fileIO "fflush" = true /\ isConsuming (secureHeap (fun _ => true)) "CRYPTO_secure_free" = true
  /\ isFactory kdf "EVP_KDF_fetch" = true.
Proof. cbn. auto. Qed.

(** The secure heap forgets an error when the handle is assigned again *)
Theorem C31_secure_heap_error_refuted : exists ready tok cs,
  isFactory (secureHeap ready) tok = true /\
  next (secureHeap ready) tok cs (err (secureHeap ready)) = Some 2.
Proof. exists (fun _ => true), "CRYPTO_secure_malloc"%string, 0. split; reflexivity. Qed.
Print Assumptions C31_secure_heap_error_refuted.

(** ** joins *)
Theorem C31_join_lub : forall d x y,
  le d x (join d x y) /\ le d y (join d x y) /\ forall z, le d x z -> le d y z -> le d (join d x y) z.
Proof. intros. apply join_lub. Qed.
Print Assumptions C31_join_lub.

Theorem C31_edge_join_upper_bound : forall d f g x yf yg,
  apply d f x = Some yf -> apply d g x = Some yg ->
  exists y, apply d (joinEF d f g) x = Some y /\ le d yf y /\ le d yg y.
Proof. intros d f g x yf yg. apply joinEF_ub. Qed.
Print Assumptions C31_edge_join_upper_bound.
Example C31_edge_join_case :
  joinEF fileIO (Const 1) (Const 1) = Const 1 /\ joinEF fileIO (Const 1) (Const 2) = AllBottom
  /\ joinEF fileIO Id (TS "fclose" 3)%string = AllBottom /\ joinEF fileIO (Const 42) (Const 2) = Const 2.
Proof. cbn. auto. Qed.

(** Equal edge functions are equal *)
Theorem C31_edge_equality : forall f g, efEqb f g = true <-> f = g.
Proof.
  intros f g. split; [apply efEqb_eq|]. intros <-.
  induction f; cbn; auto; [apply Nat.eqb_refl|rewrite Nat.eqb_refl; apply eqb_refl|now rewrite IHf1, IHf2].
Qed.
Print Assumptions C31_edge_equality.

(** The join the lattice traits offer is not idempotent (the solver does not use it) *)
Theorem C31_traits_join_refuted : exists s, In s (states fileIO) /\ fileTraitsJoin s s <> s.
Proof. exists 1. split; [cbn; tauto|discriminate]. Qed.
Print Assumptions C31_traits_join_refuted.

(** The automata are not monotone: bottom may be freed only with an error *)
Theorem C31_monotone_refuted : exists d tok cs x y x' y', table_ok d /\ isConsuming d tok = true /\
  le d x y /\ apply d (TS tok cs) x = Some x' /\ apply d (TS tok cs) y = Some y' /\ ~ le d x' y'.
Proof.
  exists secureMemory, "CRYPTO_free"%string, 0, 1, 0, 2, 3.
  split; [apply secureMemory_ok|]. split; [reflexivity|]. split; [right; now right|].
  split; [reflexivity|]. split; [reflexivity|]. intros [H|[H|H]]; discriminate.
Qed.
Print Assumptions C31_monotone_refuted.

(** ** which edge function a call gets *)
Theorem C31_call_edge : forall d cs zero ret same aliased l f, ctrEdge d cs zero ret same aliased l = Some f ->
  (f = Id /\ forall c, In c l -> ~ (isFactory d c = true /\ zero = true /\ ret = true)
                        /\ (isConsuming d c = true -> forall i, In i (consumerIdx d c) -> same = true -> aliased i = false))
  \/ (exists c s, In c l /\ isFactory d c = true /\ zero = true /\ ret = true /\ next d c cs (uninit d) = Some s /\ f = Const s)
  \/ (exists c i, In c l /\ isConsuming d c = true /\ In i (consumerIdx d c) /\ same = true /\ aliased i = true /\ f = TS c cs).
Proof. exact ctrEdge_cases. Qed.
Print Assumptions C31_call_edge.
Example C31_call_edge_case :
  ctrEdge fileIO 7 false false true (fun i => i =? 3) ["main"; "fwrite"]%string = Some (TS "fwrite" 7)
  /\ ctrEdge fileIO 7 true true false (fun _ => false) ["fopen"]%string = Some (Const 1).
Proof. cbn. auto. Qed.

(** With several possible callees only the first one counts: the other's effect is lost *)
Theorem C31_call_edge_covers_refuted : exists d cs aliased l c x f, table_ok d /\
  ctrEdge d cs false false true aliased l = Some f /\ In c l /\ isConsuming d c = true /\
  (forall i, In i (consumerIdx d c) -> aliased i = true) /\
  exists y z, apply d f x = Some y /\ next d c cs x = Some z /\ ~ le d z y.
Proof.
  exists fileIO, 0, (fun _ => true), ["fflush"; "fclose"]%string, "fclose"%string, 1, (TS "fflush" 0)%string.
  split; [apply fileIO_ok|]. split; [reflexivity|]. split; [cbn; tauto|]. split; [reflexivity|]. split; [auto|].
  exists 1, 2. split; [reflexivity|]. split; [reflexivity|]. intros [H|[H|H]]; discriminate.
Qed.
Print Assumptions C31_call_edge_covers_refuted.

(** ** the automata report exactly the violations of the usage protocols *)
Theorem C31_file_protocol : forall w, Forall (isAPI fileIO) w ->
  (run fileIO w (uninit fileIO) = Some (err fileIO) <-> ~ fileLegal false w) /\
  (fileLegal false w -> exists s, run fileIO w (uninit fileIO) = Some s /\ s <> err fileIO /\ s <> bot fileIO).
Proof.
  intros w F. destruct (file_protocol w 0 F) as [s [R [[-> H]|[L H]]]]; [lia| |]; cbn [Nat.eqb] in H; cbn [uninit fileIO err bot].
  - split; [tauto|]. intro C. elim (H C).
  - split; [split; [intro E; rewrite R in E; injection E as ->; lia|tauto]|]. intros _. exists s. split; [exact R|]. lia.
Qed.
Print Assumptions C31_file_protocol.
Example C31_file_protocol_case :
  Forall (isAPI fileIO) [("fopen",0); ("fputs",1); ("fclose",2)]%string /\ fileLegal false [("fopen",0); ("fputs",1); ("fclose",2)]%string
  /\ ~ fileLegal false [("fopen",0); ("fclose",1); ("fclose",2)]%string.
Proof. split; [repeat constructor|]. cbn. intuition discriminate. Qed.

Theorem C31_kdf_protocol : forall w, Forall (isAPI kdf) w ->
  (run kdf w (uninit kdf) = Some (err kdf) <-> ~ kdfLegal false w).
Proof.
  intros w F. destruct (kdf_protocol w 0 F) as [s [R [[-> H]|[L H]]]]; [lia| |]; cbn [Nat.eqb] in H; cbn [uninit kdf err bot].
  - tauto.
  - split; [intro E; rewrite R in E; injection E as ->; lia|tauto].
Qed.
Print Assumptions C31_kdf_protocol.

Theorem C31_kdf_context_protocol : forall fetched w, Forall (isAPI (kdfCtx fetched)) w ->
  (run (kdfCtx fetched) w (uninit (kdfCtx fetched)) = Some (err (kdfCtx fetched)) <-> ~ ctxLegal fetched false false w).
Proof.
  intros f w F. destruct (ctx_protocol f w 5 F) as [s [R [[-> H]|[L H]]]]; [left; reflexivity| |];
    change (ctxHave 5) with false in H; change (ctxParams 5) with false in H; cbn [uninit kdfCtx err bot].
  - tauto.
  - split; [intro E; rewrite R in E; injection E as ->|tauto].
    destruct L as [L|[L|[L|L]]]; discriminate.
Qed.
Print Assumptions C31_kdf_context_protocol.
Example C31_kdf_context_case : let w := [("EVP_KDF_CTX_new",0); ("EVP_KDF_CTX_set_params",1); ("EVP_KDF_derive",2); ("EVP_KDF_CTX_free",3)]%string in
  Forall (isAPI (kdfCtx (fun _ => true))) w /\ ctxLegal (fun _ => true) false false w /\ ~ ctxLegal (fun _ => false) false false w.
Proof. split; [repeat constructor|]. cbn. intuition discriminate. Qed.

Theorem C31_secure_memory_protocol : forall w, Forall (isAPI secureMemory) w ->
  (run secureMemory w (uninit secureMemory) = Some (err secureMemory) <-> ~ memLegal unknown w).
Proof.
  intros w F. cbn [uninit secureMemory err]. destruct (mem_protocol w unknown F) as [[R H]|[m [R H]]]; cbn [memCode] in R.
  - tauto.
  - split; [intro E; rewrite R in E; destruct m; discriminate|tauto].
Qed.
Print Assumptions C31_secure_memory_protocol.
Example C31_secure_memory_case : let w := [("CRYPTO_malloc",0); ("OPENSSL_cleanse",1); ("CRYPTO_free",2)]%string in
  Forall (isAPI secureMemory) w /\ memLegal unknown w /\ ~ memLegal unknown [("CRYPTO_malloc",0); ("CRYPTO_free",2)]%string.
Proof. split; [repeat constructor|]. cbn. intuition discriminate. Qed.
