(** Inter-procedural data flow, independently of the solver. *)
From Coq Require Import List Bool Arith.
From Verif Require Import InterMonoModel.
Import ListNotations.

Section Spec.
  Context {Nd M F : Type} (c : icfg Nd F) (P : problem Nd M F).

  (** [flows n stack x]: on some path that returns to where it was called from,
      [x] arrives before [n] with the given call stack, innermost call first *)
  Inductive flows : Nd -> list Nd -> M -> Prop :=
  | fl_seed : forall n x, In (n, x) (initialSeeds P) -> flows n [] x
  | fl_normal : forall n m st x, flows n st x -> isCallSite c n = false -> isExitInst c n = false ->
      In m (succs c n) -> flows m st (normalFlow P n x)
  | fl_call : forall n f s st x, flows n st x -> isCallSite c n = true -> In f (calleesOf c n) ->
      In s (startPoints c f) -> flows s (n :: st) (callFlow P n f x)
  | fl_call_to_return : forall n r st x, flows n st x -> isCallSite c n = true ->
      In r (returnSites c n) -> flows r st (callToRetFlow P n r (calleesOf c n) x)
  | fl_return : forall n cs r st x, flows n (cs :: st) x -> isCallSite c n = false -> isExitInst c n = true ->
      In r (returnSites c cs) -> flows r st (returnFlow P cs (functionOf c n) n r x).

  (** the functions that can be entered *)
  Inductive called : F -> Prop :=
  | called_seed : forall n x, In (n, x) (initialSeeds P) -> called (functionOf c n)
  | called_by : forall f g s d, called f -> In (s, d) (allEdges c f) -> isCallSite c s = true ->
      In g (calleesOf c s) -> called g.
End Spec.

(** ** Straight-line functions over nat, with set-valued problems *)
Definition subset (x y : list nat) : bool := forallb (fun a => existsb (Nat.eqb a) y) x.
Fixpoint pairs (l : list nat) : list (nat * nat) :=
  match l with a :: (b :: _) as l' => (a, b) :: pairs l' | _ => [] end.
(** [fs]: the instructions of function 0, 1, ...; [calls]: the callees of a call site *)
Definition line (fs : list (list nat)) (calls : nat -> list nat) : icfg nat nat :=
  let fn f := nth f fs [] in
  let es := flat_map pairs fs in
  let after n := map snd (filter (fun e => fst e =? n) es) in
  mkIcfg (fun n => match find (fun f => existsb (Nat.eqb n) (fn f)) (seq 0 (length fs)) with Some f => f | None => 0 end)
    (fun f => pairs (fn f)) after (fun n => map fst (filter (fun e => snd e =? n) es)) (fun _ _ => true)
    (fun n => match calls n with [] => false | _ => true end)
    (fun n => existsb (fun l => match l with [] => false | _ => last l 0 =? n end) fs)
    calls (fun f => filter (fun n => existsb (Nat.eqb f) (calls n)) (concat fs))
    (fun f => firstn 1 (fn f)) (fun f => match fn f with [] => [] | l => [last l 0] end) after.
(** facts [gen n] are added after [n], [arg cs] when calling, [kill n] are removed *)
Definition sets (gen arg kill : nat -> list nat) (seeds : list (nat * list nat)) : problem nat (list nat) nat :=
  let rm n := filter (fun a => negb (existsb (Nat.eqb a) (kill n))) in
  mkProblem (fun n x => gen n ++ rm n x) (fun cs _ x => arg cs ++ x) (fun _ _ _ _ x => x) (fun n _ _ x => rm n x)
    (@app nat) (fun x y => subset x y && subset y x) [] [] (fun x y => x ++ filter (fun a => negb (existsb (Nat.eqb a) x)) y) seeds.
