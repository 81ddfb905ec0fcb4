(** Runs of the lock protocols and mutual exclusion. *)
From Coq Require Import List ZArith Bool Relations.
From Verif Require Import LockModel.
Import ListNotations.
Open Scope Z_scope.

(** Whether a process has been given the lock for writing, for reading, and not yet asked to
    release it. *)
Definition rp_writes (p : rpc) : bool := match p with RWHold => true | _ => false end.
Definition rp_reads (p : rpc) : bool := match p with RRHold => true | _ => false end.
Definition wp_writes (p : wpc) : bool := match p with WWHold => true | _ => false end.
Definition wp_reads (p : wpc) : bool := match p with WRHold => true | _ => false end.
Definition tq_writes (p : tpc) : bool := match p with THold k _ => k =? lq_write | _ => false end.
Definition tq_reads (p : tpc) : bool := match p with THold k _ => k =? lq_read | _ => false end.

(** A writer is alone. *)
Definition exclusive {P} (writes reads : P -> bool) (ps : list P) : Prop :=
  forall i j p q, i <> j -> nth_error ps i = Some p -> nth_error ps j = Some q ->
    writes p = true -> writes q = false /\ reads q = false.

(** Any number of processes, any interleaving, from the state wg_init_locks makes. *)
Definition rp_run (n : nat) (c : Z * list rpc) : Prop :=
  clos_refl_trans _ (turns rp_step) (0, repeat RIdle n) c.
Definition wp_run (n : nat) (c : Z * Z * list wpc) : Prop :=
  clos_refl_trans _ (turns wp_step) (0, 0, repeat WIdle n) c.
Definition tq_run (late interrupts : bool) (n cells : nat) (base : Z) (nd : Z -> qnode) (c : qshared * list tpc) : Prop :=
  clos_refl_trans _ (tq late interrupts) (init_locks cells 128 base nd, repeat TIdle n) c.

(** Inside the queue mutex. *)
Definition in_section (p : tpc) : bool :=
  match p with
  | TIn _ | TFail | TOut _ _ | TGiveUpIn _ _ | TGiveUpOut | TChainIn _ | TChainOut _ _ | TRelIn _ _ | TRelOut _ => true
  | _ => false
  end.
