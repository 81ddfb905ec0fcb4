(** What the parallel search is documented to do (README 118, 569; Doc/strategy_reference.md "Multiple
    Runs" and 94; Doc/cli_reference.md "-parallel"): the runs of the strategy are dealt out to the
    workers, the first proof found is the result, and the parent waits for the workers. *)
From Coq Require Import ZArith Arith List Bool.
From Verif Require Import FkModel.
Import ListNotations.

(** The number of workers that come to be, for -parallel [p], when fork number [k] succeeds iff [ok k]. *)
Definition workers (p : nat) (ok : nat -> bool) : nat := forks_made ok (max_forks p) 0.

(** The state [s] comes up when the program runs with -parallel [p] and makes at least one worker,
    under some schedule of the processes. *)
Definition comes_up (ltb : bool) (st : strategy) (p : nat) (ok : nat -> bool)
    (act : nat -> nat -> turn) (s : system) : Prop :=
  0 < workers p ok /\ reaches ltb st (max_forks p) act (forked (workers p ok)) s.

(** Nothing more can happen. *)
Definition over (ltb : bool) (st : strategy) (p : nat) (act : nat -> nat -> turn) (s : system) : Prop :=
  forall t, ~ step ltb st (max_forks p) act s t.

(** The program makes no worker and comes to its end, having printed [out], with exit status [w]. *)
Definition alone_run (ltb : bool) (st : strategy) (p : nat) (ok : nat -> bool)
    (act : nat -> nat -> turn) (out : list event) (w : status) : Prop :=
  workers p ok = 0 /\ alone ltb st (max_forks p) act (Running 0 1) out (Ended w).

(** [n] steps lead from [s] to [t]. *)
Inductive steps (ltb : bool) (st : strategy) (p : nat) (act : nat -> nat -> turn)
    : nat -> system -> system -> Prop :=
| steps_0 : forall s, steps ltb st p act 0 s s
| steps_S : forall n s t u, step ltb st (max_forks p) act s t -> steps ltb st p act n t u ->
    steps ltb st p act (S n) s u.

(** A strategy whose runs are all objects. *)
Definition plain (st : strategy) : Prop := Forall (eq false) st.

(** A turn that was searched to its end without a proof. *)
Definition fruitless (t : turn) : Prop := exists r a, t = Ran r a /\ r <> 0%Z.
Definition proof (t : turn) : Prop := exists a, t = Ran 0 a.

(** Worker [k] of [m] would come to the proof in run [i]: its runs before [i] end without proof. *)
Definition finds (st : strategy) (m : nat) (act : nat -> nat -> turn) (k i : nat) : Prop :=
  i < length st /\ i mod m = k /\ proof (act k i) /\
  forall j, j < i -> j mod m = k -> fruitless (act k j).

(** Some result was shown; a proof was shown. *)
Definition result_shown (l : list event) : Prop := exists k i, In (Shown k i) l.
Definition proof_shown (act : nat -> nat -> turn) (l : list event) : Prop :=
  exists k i, In (Shown k i) l /\ proof (act k i).

(** The numbers of the runs started. *)
Fixpoint started (l : list event) : list nat :=
  match l with
  | nil => nil
  | Start _ i :: r => i :: started r
  | _ :: r => started r
  end.

(** No run is ended by a signal. *)
Definition calm (act : nat -> nat -> turn) : Prop := forall k i, act k i <> Crash.

(** The codes a search ends with fit into the exit status (the code has 1, 2, -1 and -2). *)
Definition small_codes (act : nat -> nat -> turn) : Prop :=
  forall k i r a, act k i = Ran r a -> (-256 < r < 256)%Z.
