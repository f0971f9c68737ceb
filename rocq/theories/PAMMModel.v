(** Model of the performance measurements:
    /repo/lib/Utils/PAMM.cpp ("PM.cpp") and /repo/include/phasar/Utils/ChronoUtils.h ("CU.h").

    StringMaps are association lists with unique keys.  The parameter [dbg] tells whether
    asserts are compiled in.  [Abort]: a failed assert or report_fatal_error; [UB]: the end
    iterator is dereferenced.  Times are nanoseconds, read from the clock by the caller and
    given as an argument.  Arguments are converted to their unsigned types.
    Simplification: stopAllTimers reads the clock once.
    Not modelled: printing, the JSON export, and reset (a new object). *)
From Coq Require Import List Bool Arith ZArith.
From Verif Require Import Assoc.
Import ListNotations.
Local Open Scope Z_scope.

Inductive outcome (A : Type) := Ok (a : A) | Abort | UB.
Arguments Ok {A} a.
Arguments Abort {A}.
Arguments UB {A}.

Definition u32 (z : Z) : Z := z mod 2 ^ 32.
Definition u64 (z : Z) : Z := z mod 2 ^ 64.
(** duration_cast to milliseconds, converted to uint64_t *)
Definition ms (ns : Z) : Z := u64 (Z.quot ns 1000000).

Section PAMM.
  Context {K : Type} {EK : EqDec K}.
  Variable dbg : bool.

  (** the members, PAMM.h:201-206 *)
  Record pamm := mkPamm {
    running : list (K * Z);
    stopped : list (K * (Z * Z));
    repeating : list (K * list (Z * Z));
    counter : list (K * Z);
    histogram : list (K * list (K * Z)) }.
  Definition empty : pamm := mkPamm [] [] [] [] [].

  Definition has {V} (k : K) (l : list (K * V)) : bool :=
    match afind k l with Some _ => true | None => false end.

  (** startTimer, PM.cpp:50-62 *)
  Definition startTimer (id : K) (now : Z) (s : pamm) : outcome pamm :=
    if has id (stopped s) then Abort
    else if has id (running s) then Abort
    else Ok (mkPamm (aset id now (running s)) (stopped s) (repeating s) (counter s) (histogram s)).

  (** resetTimer, PM.cpp:64-71 *)
  Definition resetTimer (id : K) (s : pamm) : outcome pamm :=
    if dbg && eqb (has id (running s)) (has id (stopped s)) then Abort
    else Ok (mkPamm (adel id (running s)) (adel id (stopped s)) (repeating s) (counter s) (histogram s)).

  (** stopTimer, PM.cpp:73-94 *)
  Definition stopTimer (id : K) (pause : bool) (now : Z) (s : pamm) : outcome pamm :=
    let valid := has id (running s) || has id (stopped s) in
    if dbg && negb valid then Abort
    else if dbg && negb (has id (running s)) then Abort
    else if valid then
      match afind id (running s) with
      | None => UB
      | Some start =>
          let r := adel id (running s) in
          if pause
          then Ok (mkPamm r (stopped s) (aset id (afindd [] id (repeating s) ++ [(start, now)]) (repeating s))
                     (counter s) (histogram s))
          else Ok (mkPamm r (aset id (start, now) (stopped s)) (repeating s) (counter s) (histogram s))
      end
    else Ok s.

  (** elapsedTime, PM.cpp:96-114 *)
  Definition elapsedTime (id : K) (now : Z) (s : pamm) : outcome Z :=
    match afind id (running s) with
    | Some start => Ok (ms (now - start))
    | None =>
        match afind id (stopped s) with
        | Some (start, e) => Ok (ms (e - start))
        | None => if dbg then Abort else Ok 0
        end
    end.

  (** elapsedTimeOfRepeatingTimer, PM.cpp:116-145 *)
  Definition elapsedTimeOfRepeatingTimer (s : pamm) : list (K * list Z) :=
    map (fun p => (fst p, map (fun se => ms (snd se - fst se)) (snd p))) (repeating s).

  Definition setCounter (s : pamm) (c : list (K * Z)) : pamm :=
    mkPamm (running s) (stopped s) (repeating s) c (histogram s).

  (** regCounter, PM.cpp:151-154 *)
  Definition regCounter (id : K) (n : Z) (s : pamm) : outcome pamm :=
    if has id (counter s) then (if dbg then Abort else Ok s)
    else Ok (setCounter s (aset id (u32 n) (counter s))).

  (** incCounter, PM.cpp:156-163 *)
  Definition incCounter (id : K) (n : Z) (s : pamm) : outcome pamm :=
    match afind id (counter s) with
    | Some c => Ok (setCounter s (aset id (u32 (c + u32 n)) (counter s)))
    | None => if dbg then Abort else Ok s
    end.

  (** decCounter, PM.cpp:165-172 *)
  Definition decCounter (id : K) (n : Z) (s : pamm) : outcome pamm :=
    match afind id (counter s) with
    | Some c => Ok (setCounter s (aset id (u32 (c - u32 n)) (counter s)))
    | None => if dbg then Abort else Ok s
    end.

  (** getCounter, PM.cpp:174-182 *)
  Definition getCounter (id : K) (s : pamm) : outcome (option Z) :=
    match afind id (counter s) with
    | Some c => Ok (Some c)
    | None => if dbg then Abort else Ok None
    end.

  (** getSumCountInternal, PM.cpp:184-199, called by getSumCount, 201-214 *)
  Fixpoint sumFrom (ctr : Z) (ids : list K) (s : pamm) : outcome (option Z) :=
    match ids with
    | [] => Ok (Some ctr)
    | id :: ids' =>
        match getCounter id s with
        | Ok (Some c) => sumFrom (u64 (ctr + c)) ids' s
        | Ok None => Ok None
        | Abort => Abort
        | UB => UB
        end
    end.
  Definition getSumCount (ids : list K) (s : pamm) : outcome (option Z) := sumFrom 0 ids s.

  Definition setHistogram (s : pamm) (h : list (K * list (K * Z))) : pamm :=
    mkPamm (running s) (stopped s) (repeating s) (counter s) h.

  (** regHistogram, PM.cpp:216-219 *)
  Definition regHistogram (id : K) (s : pamm) : outcome pamm :=
    if has id (histogram s) then (if dbg then Abort else Ok s)
    else Ok (setHistogram s (aset id [] (histogram s))).

  (** addToHistogram, PM.cpp:221-235 *)
  Definition addToHistogram (id dp : K) (v : Z) (s : pamm) : outcome pamm :=
    match afind id (histogram s) with
    | None => if dbg then Abort else Ok s
    | Some h =>
        let h' := match afind dp h with
                  | None => aset dp (u64 v) h
                  | Some x => aset dp (u64 (x + u64 v)) h
                  end in
        Ok (setHistogram s (aset id h' (histogram s)))
    end.

  (** stopAllTimers, PM.cpp:237-243; [None]: out of fuel *)
  Fixpoint stopLoop (fuel : nat) (now : Z) (s : pamm) : option (outcome pamm) :=
    match running s with
    | [] => Some (Ok s)
    | (id, _) :: _ =>
        match fuel with
        | O => None
        | S f =>
            match stopTimer id false now s with
            | Ok s' => stopLoop f now s'
            | Abort => Some Abort
            | UB => Some UB
            end
        end
    end.

  (** the calls of a client *)
  Inductive op :=
  | Start (id : K) (now : Z)
  | ResetT (id : K)
  | Stop (id : K) (pause : bool) (now : Z)
  | StopAll (now : Z)
  | Reg (id : K) (n : Z)
  | Inc (id : K) (n : Z)
  | Dec (id : K) (n : Z)
  | RegHist (id : K)
  | AddHist (id dp : K) (v : Z).

  Definition step (o : op) (s : pamm) : option (outcome pamm) :=
    match o with
    | Start id t => Some (startTimer id t s)
    | ResetT id => Some (resetTimer id s)
    | Stop id p t => Some (stopTimer id p t s)
    | StopAll t => stopLoop (length (running s)) t s
    | Reg id n => Some (regCounter id n s)
    | Inc id n => Some (incCounter id n s)
    | Dec id n => Some (decCounter id n s)
    | RegHist id => Some (regHistogram id s)
    | AddHist id dp v => Some (addToHistogram id dp v s)
    end.

  Fixpoint runFrom (h : list op) (s : pamm) : option (outcome pamm) :=
    match h with
    | [] => Some (Ok s)
    | o :: h' =>
        match step o s with
        | Some (Ok s') => runFrom h' s'
        | r => r
        end
    end.
  Definition run (h : list op) : option (outcome pamm) := runFrom h empty.
End PAMM.
Arguments pamm : clear implicits.
Arguments op : clear implicits.

(** hms, CU.h:24-41: hours, minutes, seconds and microseconds of nanoseconds *)
Definition hms (ns : Z) : Z * Z * Z * Z :=
  let h := Z.quot ns 3600000000000 in
  let ns := ns - h * 3600000000000 in
  let m := Z.quot ns 60000000000 in
  let ns := ns - m * 60000000000 in
  let s := Z.quot ns 1000000000 in
  let ns := ns - s * 1000000000 in
  (h, m, s, Z.quot ns 1000).
