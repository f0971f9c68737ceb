(** Proofs about the ids of values. *)
From Coq Require Import String Ascii List Bool Arith ZArith Lia.
From Verif Require Import Assoc UtilitiesModel UtilitiesSpec UtilitiesProofs UtilitiesProperties IRDBModel IRDBSpec.
Import ListNotations.
Open Scope nat_scope.

(** ** The tables *)
Lemma afind_snoc {V} (v w : irvalue) (x : V) l : afind v (l ++ [(w, x)]) = match afind v l with Some y => Some y | None => if eq_dec v w then Some x else None end.
Proof. induction l as [|[w' y] l IH]; cbn; auto. destruct (eq_dec v w'); auto. Qed.
Definition inv (vs : list irvalue) (d : irdb) : Prop :=
  idToInst d = vs /\ (forall v k, afind v (instToId d) = Some k <-> nth_error vs k = Some v) /\ length (instToId d) = length vs.
Lemma nth_snoc {A} (vs : list A) x k y : nth_error (vs ++ [x]) k = Some y <-> nth_error vs k = Some y \/ (k = length vs /\ y = x).
Proof.
  destruct (Nat.lt_ge_cases k (length vs)) as [L|L].
  - rewrite nth_error_app1 by exact L. split; [auto|intros [H|[-> _]]; [exact H|lia]].
  - rewrite nth_error_app2 by exact L. assert (N : nth_error vs k = None) by (now apply nth_error_None). rewrite N. destruct (Nat.eq_dec k (length vs)) as [->|Ne].
    + rewrite Nat.sub_diag. cbn. split; [intros [= ->]; auto|intros [H|[_ ->]]; [discriminate|reflexivity]].
    + assert (E : k - length vs <> 0) by lia. destruct (k - length vs) as [|[|j]]; [lia| |]; cbn; (split; [discriminate|intros [H|[H _]]; [discriminate|lia]]).
Qed.
Lemma number_inv pre vs d v : inv vs d -> ~ In v vs -> inv (vs ++ [v]) (fst (number pre (d, length vs) v)).
Proof.
  intros [E [H L]] N. assert (Fn : afind v (instToId d) = None).
  { destruct (afind v (instToId d)) as [k|] eqn:Ef; auto. apply H in Ef. apply nth_error_In in Ef. tauto. }
  unfold inv, number, tryEmplace. cbn. rewrite Fn, E. split; [reflexivity|]. split; [|rewrite !app_length, L; reflexivity].
  intros w k. rewrite afind_snoc, nth_snoc. destruct (afind w (instToId d)) as [j|] eqn:Ew.
  - pose proof (proj1 (H w j) Ew) as Hj. rewrite <- H, Ew. split; [intros [= ->]; auto|]. intros [[= ->]|[-> ->]]; [reflexivity|]. congruence.
  - rewrite <- H, Ew. destruct (eq_dec w v) as [->|Ne]; (split; [intros [= <-]; auto|intros [X|[-> Y]]; congruence]).
Qed.
Lemma numbers_inv pre l : forall vs d, inv vs d -> NoDup (vs ++ l) ->
  let r := fold_left (number pre) l (d, length vs) in inv (vs ++ l) (fst r) /\ snd r = length (vs ++ l) /\ idOffset (fst r) = idOffset d.
Proof.
  induction l as [|v l IH]; intros vs d I N; cbn; [rewrite app_nil_r; auto|].
  assert (Nv : ~ In v vs) by (apply NoDup_remove_2 in N; rewrite in_app_iff in N; tauto). pose proof (number_inv pre vs d v I Nv) as I'.
  change (mkDB _ _ _ _) with (fst (number pre (d, length vs) v)).
  replace (S (length vs)) with (length (vs ++ [v])) by (rewrite app_length; cbn; lia).
  replace (vs ++ v :: l) with ((vs ++ [v]) ++ l) in * by (rewrite <- app_assoc; reflexivity).
  exact (IH (vs ++ [v]) _ I' N).
Qed.
Lemma numbers_meta l : forall vs d, NoDup (vs ++ l) -> (forall k v, nth_error vs k = Some v -> afind v (meta d) = Some (toString k)) ->
  forall k v, nth_error (vs ++ l) k = Some v -> afind v (meta (fst (fold_left (number true) l (d, length vs)))) = Some (toString k).
Proof.
  induction l as [|w l IH]; intros vs d N H; cbn; [rewrite app_nil_r; exact H|].
  replace (S (length vs)) with (length (vs ++ [w])) by (rewrite app_length; cbn; lia).
  replace (vs ++ w :: l) with ((vs ++ [w]) ++ l) in * by (rewrite <- app_assoc; reflexivity).
  apply IH; [exact N|]. intros k v Hk. cbn. rewrite afind_aset. apply nth_snoc in Hk. destruct Hk as [Hk|[-> ->]].
  - destruct (eq_dec v w) as [->|Ne]; [|now apply H]. exfalso. rewrite <- app_assoc in N. apply NoDup_remove_2 in N. apply N. apply in_or_app. left. eapply nth_error_In; eauto.
  - destruct (eq_dec w w); [reflexivity|congruence].
Qed.
Lemma flat_instructions l : flat_map instructions l = map Inst (flat_map fnInsts l).
Proof. induction l as [|f l IH]; cbn; auto. unfold instructions at 1. now rewrite IH, map_app. Qed.
Lemma NoDup_app_l {A} (l l' : list A) : NoDup (l ++ l') -> NoDup l.
Proof. induction l as [|x l IH]; cbn; [constructor|]. intros N. inversion N as [|? ? N1 N2]; subst. constructor; [|now apply IH]. intros H. apply N1, in_or_app. now left. Qed.

Lemma construct_ok pre m before : let vs := everything m [] in NoDup vs ->
  let d := construct pre m before in inv vs d /\ idOffset d = length (modGlobals m) /\
  (pre = true -> forall k v, nth_error vs k = Some v -> afind v (meta d) = Some (toString k)).
Proof.
  intros vs N. unfold construct. set (gs := map Global (modGlobals m)) in *. set (is := map Inst (flat_map fnInsts (modFuns m))).
  assert (Ev : vs = gs ++ is) by (unfold vs, everything; cbn; now rewrite app_nil_r). rewrite Ev in *. clear Ev vs.
  assert (I0 : inv [] (mkDB [] [] 0 before)). { split; [reflexivity|]. split; [|reflexivity]. intros v k. cbn. destruct k; cbn; split; discriminate. }
  pose proof (NoDup_app_l _ _ N) as Ng. destruct (numbers_inv pre gs [] _ I0 Ng) as [I1 [S1 _]].
  assert (M1 : pre = true -> forall k v, nth_error gs k = Some v -> afind v (meta (fst (fold_left (number pre) gs (mkDB [] [] 0 before, 0)))) = Some (toString k)).
  { intros ->. apply (numbers_meta gs []); [exact Ng|]. intros k v H. destruct k; discriminate. }
  cbn [length app] in S1, I1. destruct (fold_left (number pre) gs (mkDB [] [] 0 before, 0)) as [d id] eqn:Ed. cbn [fst snd] in *. subst id.
  set (d' := mkDB (idToInst d) (instToId d) (length gs) (meta d)). assert (I2 : inv gs d') by exact I1.
  rewrite flat_instructions. fold is. fold d'. destruct (numbers_inv pre is gs d' I2 N) as [I3 [S3 O3]].
  split; [exact I3|]. split; [rewrite O3; unfold d', gs; cbn; apply map_length|].
  intros ->. apply (numbers_meta is gs d' N). exact (M1 eq_refl).
Qed.
Lemma history_ok pre m before added d : history pre m before added d -> let vs := everything m added in NoDup vs ->
  inv vs d /\ idOffset d = length (modGlobals m) /\ (pre = true -> forall k v, nth_error vs k = Some v -> afind v (meta d) = Some (toString k)).
Proof.
  intros H vs N. subst vs. unfold history in H. revert d H.
  induction added as [|f added IH] using rev_ind; intros d H.
  - cbn in H. subst d. now apply construct_ok.
  - rewrite fold_left_app in H. cbn in H. subst d.
    assert (E : everything m (added ++ [f]) = everything m added ++ instructions f).
    { unfold everything, instructions. rewrite flat_map_app. cbn. now rewrite app_nil_r, map_app, !app_assoc. }
    rewrite E in *. destruct (IH (NoDup_app_l _ _ N) _ eq_refl) as [I [O M]].
    set (d := fold_left _ added _) in *. clearbody d. unfold insertFunction. destruct I as [I1 I2]. rewrite I1.
    destruct (numbers_inv pre (instructions f) _ d (conj I1 I2) N) as [J [_ O2]]. split; [exact J|]. split; [now rewrite O2|].
    intros ->. apply numbers_meta; auto.
Qed.

(** ** Decimal numbers *)
Lemma digitChar_eq d : d < 10 -> digitOfNat d = digitChar d.
Proof. intros H. do 10 (destruct d as [|d]; [reflexivity|]). lia. Qed.
Lemma decimal_numeral fuel : forall n ds, n < fuel -> (forall x, In x ds -> x < 10) ->
  exists es, decimal fuel n (numeral ds) = numeral (es ++ ds) /\ canonical es /\ value es = Z.of_nat n.
Proof.
  induction fuel as [|fuel IH]; intros n ds L Hd; [lia|]. cbn [decimal]. cbv zeta.
  assert (Lm : n mod 10 < 10) by (apply Nat.mod_upper_bound; lia). rewrite digitChar_eq by exact Lm.
  change (String (digitChar (n mod 10)) (numeral ds)) with (numeral (n mod 10 :: ds)).
  pose proof (Nat.div_mod n 10 ltac:(lia)) as D. destruct (Nat.eqb_spec (n / 10) 0) as [Z0|Nz].
  - exists [n mod 10]. split; [reflexivity|]. split; [split; [intros d [<-|[]]; exact Lm|exact Logic.I]|]. unfold value. cbn -[Nat.modulo]. lia.
  - destruct (IH (n / 10) (n mod 10 :: ds)) as [es [E [[C1 C2] V]]]; [lia|intros x [<-|Hx]; auto|].
    exists (es ++ [n mod 10]). rewrite E. split; [rewrite <- app_assoc; reflexivity|]. split.
    + split; [intros d Hin; apply in_app_iff in Hin; destruct Hin as [Hin|[<-|[]]]; auto|].
      destruct es as [|e es]; [destruct C2|]. cbn. destruct (es ++ [n mod 10]) eqn:Ee; [destruct es; discriminate|].
      destruct es as [|e2 es]; [|exact C2]. intros ->. unfold value in V. cbn [fold_left] in V. lia.
    + unfold value. rewrite fold_left_app. fold (value es). rewrite V. cbn -[Nat.modulo Nat.div Z.mul]. lia.
Qed.
Lemma toString_numeral n : exists ds, toString n = numeral ds /\ canonical ds /\ value ds = Z.of_nat n.
Proof. destruct (decimal_numeral (S n) n []) as [ds [E [C V]]]; [lia|intros x []|]. exists ds. rewrite app_nil_r in E. auto. Qed.
Lemma numeral_nodot ds : (forall d, In d ds -> d < 10) -> splitDot (numeral ds) = None.
Proof.
  induction ds as [|d ds IH]; intros H; cbn; auto. rewrite IH by auto using in_cons.
  assert (L : d < 10) by (apply H; now left). do 10 (destruct d as [|d]; [reflexivity|]). lia.
Qed.
Lemma toString_parse n : (Z.of_nat n < 2 ^ 32)%Z -> parseInt (toString n) = Some (Z.of_nat n).
Proof.
  intros L. destruct (toString_numeral n) as [ds [-> [[C1 C2] V]]]. unfold parseInt.
  assert (E : digitsVal (numeral ds) 0 = Z.of_nat n) by (rewrite digitsVal_numeral by exact C1; exact V).
  assert (St : startsDigit (numeral ds) = true). { destruct ds as [|d ds]; [destruct C2|]. cbn. rewrite digitOf_char by (apply C1; now left). reflexivity. }
  rewrite St, E. apply Z.ltb_lt in L. now rewrite L.
Qed.
Lemma toString_nonempty n : exists c s, toString n = String c s /\ c <> "-"%char /\ splitDot (toString n) = None.
Proof.
  destruct (toString_numeral n) as [ds [E [[C1 C2] _]]]. rewrite E, numeral_nodot by exact C1. destruct ds as [|d ds]; [destruct C2|]. cbn. do 2 eexists. split; [reflexivity|]. split; [|reflexivity].
  assert (L : d < 10) by (apply C1; now left). do 10 (destruct d as [|d]; [discriminate|]). lia.
Qed.
Lemma toString_inj a b : toString a = toString b -> a = b.
Proof.
  intros E. destruct (toString_numeral a) as [ds [Ea [[C1 _] Va]]], (toString_numeral b) as [es [Eb [[C1' _] Vb]]].
  assert (X : digitsVal (numeral ds) 0 = digitsVal (numeral es) 0) by congruence. rewrite !digitsVal_numeral in X by assumption.
  assert (value ds = value es) by exact X. lia.
Qed.
Lemma split_plain f s : ~ hasDot f -> splitDot (append f (append "."%string s)) = Some (f, s).
Proof.
  induction f as [|c f IH]; cbn; auto. intros N. destruct (Ascii.eqb_spec c "."%char) as [->|Ne]; [tauto|]. cbn in IH. rewrite IH by tauto. reflexivity.
Qed.
(** the last dot separates *)
Lemma hasDot_split s : splitDot s = None <-> ~ hasDot s.
Proof.
  induction s as [|c s IH]; cbn; [tauto|]. destruct (Ascii.eqb_spec c "."%char) as [->|Ne]; [split; [discriminate|tauto]|].
  destruct (splitDot s) as [[a b]|]; split; try discriminate; try tauto; intuition discriminate.
Qed.
Lemma dot_app f s : hasDot (append f s) <-> hasDot f \/ hasDot s.
Proof. induction f as [|c f IH]; cbn; tauto. Qed.
Lemma last_dot f : forall g a b, ~ hasDot a -> ~ hasDot b -> append f (append "." a) = append g (append "." b) -> f = g /\ a = b.
Proof.
  induction f as [|c f IH]; intros [|c' g] a b Na Nb E; cbn in E.
  - injection E as ->. auto.
  - injection E as _ E. subst a. destruct Na. apply dot_app. right. now left.
  - injection E as _ E. subst b. destruct Nb. apply dot_app. right. now left.
  - injection E as -> E. destruct (IH _ _ _ Na Nb E) as [-> ->]. auto.
Qed.
