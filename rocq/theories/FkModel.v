(** Model of the parallel search: the worker processes made by fork, the loop over the runs of the
    strategy in each of them, the parent waiting for them, and the exit status of the program.
    Reasoner/rmain.c (wg_run_reasoner), Reasoner/guide.c (wr_parse_guide_section), Main/gkc.c (main).

    Simplifications.  What happens inside one run (setting up, searching, running into an error) is an
    oracle: it gives the code the run ends with.  The worker processes are all made before any of them
    goes on: a worker touches nothing that another worker or the parent sees, except by printing and by
    ending.  The parent reads a status, kills and exits in one step; anything another worker does in
    between it could as well have done just before.  Not modelled: the alarm of -seconds, which ends the
    parent, and prctl failing in a worker (rmain.c 300-306). *)
From Coq Require Import ZArith Arith List Bool.
Import ListNotations.

(** What one turn of the loop over the runs comes to, rmain.c 391-904.
    - [TimeUp]: the total time is used up before the run starts, 430-439;
    - [Fail]: an error in the strategy, or in setting up, return -1: 460-463, 487-494, 528-537, 575-598;
    - [NoClauses]: the clause lists cannot be made or are empty, break: 723-735;
    - [Crash]: the process is ended by a signal during the run;
    - [Ran r a]: the search was done, [r] is what wr_genloop gave, corrected by 820-836, and [a] says
      whether there are answers (wr_have_answers). *)
Inductive turn : Type :=
| TimeUp
| Fail
| NoClauses
| Crash
| Ran (r : Z) (a : bool).

(** The runs array of the strategy: for each run, whether it is an array (a sequence of strategies)
    instead of an object.  A strategy with no runs array, or with a number for it, has [nil]:
    guide.c 357-378. *)
Definition strategy := list bool.

(** wr_parse_guide_section, guide.c 376-427, as far as its result for run number [i] goes: 10 at once
    when that run is an array (141-151, 400), the number of runs otherwise - also when there is no run
    with that number (420-427). *)
Definition guide_result (st : strategy) (i : nat) : nat :=
  match nth_error st i with
  | Some true => 10
  | _ => length st
  end.

(** What is printed and can be seen, in order.
    - [Start k i]: process [k] starts run number [i], rmain.c 554-571 (printed at print level 12 and above);
    - [Shown k i]: process [k] shows the proof or the answers of run [i], wr_show_result, 841-845;
    - [NotFound]: "proof not found", gkc.c 425-433, 712-716. *)
Inductive event : Type :=
| Start (k i : nat)
| Shown (k i : nat)
| NotFound.

(** How a process ended, as waitpid reports it. *)
Inductive status : Type :=
| Exited (code : nat)
| Signaled.

(** A process in the loop over the runs at turn [i], with [res] (rmain.c 143) so far; or ended and not
    yet waited for; or waited for or killed by the parent. *)
Inductive kid : Type :=
| Running (i : nat) (res : Z)
| Ended (s : status)
| Gone.

Section Process.
Variable ltb : bool.                   (* -strategytext LTBSPECIAL *)
Variable st : strategy.
Variable m : nat.                      (* maxforks *)
Variable act : nat -> nat -> turn.     (* process, run number *)

(** The exit status of a process that called exit or returned [r] from main: its low eight bits. *)
Definition low8 (r : Z) : nat := Z.to_nat (r mod 256).

(** What main does with the result of wg_run_reasoner, gkc.c 424-445 and 711-729. *)
Definition finish (res : Z) : kid * list event :=
  if (res =? 0)%Z then (Ended (Exited 0), nil)
  else (Ended (Exited (if ltb then low8 res else 0)), NotFound :: nil).

(** One turn of the loop, rmain.c 391-904.  [skip] says whether the process leaves out the runs of the
    other processes (line 408: a worker, not the only process). *)
Definition turn_step (skip : bool) (k i : nat) (res : Z) : kid * list event :=
  if skip && negb (Nat.eqb (i mod m) k) then (Running (S i) res, nil)
  else
    match act k i with
    | TimeUp => finish 2
    | Fail => finish (-1)
    | NoClauses => let (s, e) := finish res in (s, Start k i :: e)
    | Crash => (Ended Signaled, Start k i :: nil)
    | Ran r a =>
        let shown := if (r =? 0)%Z || ((r =? 1)%Z && a) then Shown k i :: nil else nil in
        if (r =? 0)%Z then
          let (s, e) := finish 0 in (s, Start k i :: shown ++ e)
        else if Nat.leb (guide_result st i) (S i) then
          let (s, e) := finish r in (s, Start k i :: shown ++ e)
        else (Running (S i) r, Start k i :: shown)
    end.

(** maxforks, rmain.c 278-283: at most 64, and 1 is taken as 0. *)
Definition max_forks (parallel : nat) : nat :=
  let p := if Nat.ltb 64 parallel then 64 else parallel in
  if Nat.eqb p 1 then 0 else p.

(** The fork loop, rmain.c 285-323: it stops at the first fork that fails. *)
Fixpoint forks_made (ok : nat -> bool) (n : nat) (k : nat) : nat :=
  match n with
  | O => O
  | S n' => if ok k then S (forks_made ok n' (S k)) else O
  end.

(** The parent in the loop of rmain.c 327-386: forkslive, the last value of stat (nothing before the
    first wait), and for each worker whether its entry in forkpids is still there; or exited. *)
Inductive parent : Type :=
| Waiting (live : nat) (stat : option status) (pids : list bool)
| Exit (code : nat).

Record system : Type := System { kids : list kid; par : parent; out : list event }.

Fixpoint put {A : Type} (k : nat) (x : A) (l : list A) : list A :=
  match l, k with
  | nil, _ => nil
  | _ :: r, O => x :: r
  | y :: r, S k' => y :: put k' x r
  end.

(** kill(forkpids[i],SIGKILL) for the entries still there, rmain.c 363-369. *)
Fixpoint kill_all (pids : list bool) (ks : list kid) : list kid :=
  match pids, ks with
  | true :: p, _ :: r => Gone :: kill_all p r
  | false :: p, x :: r => x :: kill_all p r
  | _, r => r
  end.

(** What the parent does once waitpid returned, rmain.c 344-386, and after the loop, 403 and 905-915:
    the result is 1, as set at the start (143).  [reaped] is the worker waitpid named, if any. *)
Definition parent_step (s : system) (live : nat) (stat : option status) (pids : list bool)
    (reaped : option nat) : system :=
  let ks := match reaped with Some k => put k Gone (kids s) | None => kids s end in
  match stat with
  | Some (Exited e) =>
      let pids' := match reaped with Some k => put k false pids | None => pids end in
      if Nat.eqb e 0 then System (kill_all pids' ks) (Exit 0) (out s)
      else
        match pred live with
        | O => System ks (Exit (if ltb then 1 else 0)) (out s ++ NotFound :: nil)
        | S l => System ks (Waiting (S l) stat pids') (out s)
        end
  | _ => System ks (Waiting live stat pids) (out s)
  end.

(** The steps of the whole: a worker makes a turn; the parent waits for a worker that ended; waitpid
    returns -1, leaving stat as it was, when there is no worker left to wait for. *)
Inductive step : system -> system -> Prop :=
| step_kid : forall s k i res x e,
    nth_error (kids s) k = Some (Running i res) ->
    turn_step true k i res = (x, e) ->
    step s (System (put k x (kids s)) (par s) (out s ++ e))
| step_wait : forall s k w live stat pids,
    par s = Waiting live stat pids ->
    nth_error (kids s) k = Some (Ended w) ->
    step s (parent_step s live (Some w) pids (Some k))
| step_nochild : forall s live stat pids,
    par s = Waiting live stat pids ->
    (forall x, In x (kids s) -> x = Gone) ->
    step s (parent_step s live stat pids None).

(** The state in which [f] workers, at least one, have been made, rmain.c 262-330. *)
Definition forked (f : nat) : system :=
  System (repeat (Running 0 1) f) (Waiting f None (repeat true f)) nil.

Inductive reaches : system -> system -> Prop :=
| reaches_refl : forall s, reaches s s
| reaches_step : forall s t u, reaches s t -> step t u -> reaches s u.

(** The only process, when no fork was made (rmain.c 403 and 408 do not apply): its turns one after
    another. *)
Inductive alone : kid -> list event -> kid -> Prop :=
| alone_end : forall x, alone x nil x
| alone_turn : forall i res x e y e',
    turn_step false 0 i res = (x, e) ->
    alone x e' y ->
    alone (Running i res) (e ++ e') y.

End Process.
