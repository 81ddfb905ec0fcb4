(** The database level reader/writer lock.
    Code: Db/dblock.c 514-923 (spin locks), 927-1230 (queued lock), 1242-1283 and 1383-1401
    (set-up, cells), 1409-1428 (futex calls).  Shipped configuration: queued lock (LOCK_PROTO 3 in
    config.h); the reader-preference lock is what config-gcc.h and config-w32.h select.
    Memory is sequentially consistent and every access to a lock word is one step; the loops
    that spin, sleep and count down a time-out are steps that may be taken any number of times.
    A process is a program point; a configuration is the shared words and a list of processes. *)
From Coq Require Import List ZArith Bool.
From Verif Require Import Word64.
Import ListNotations.
Open Scope Z_scope.

Fixpoint set_nth {A} (i : nat) (x : A) (l : list A) : list A :=
  match i, l with
  | _, [] => []
  | O, _ :: l => x :: l
  | S i, y :: l => y :: set_nth i x l
  end.

(** * Reader-preference spin lock, 514-706 *)
Inductive rpc :=
| RIdle
| RWTry                         (* in db_rpspin_wlock *)
| RWHold                        (* it has returned 1 *)
| RRInc | RRCheck | RRBack      (* in db_rpspin_rlock: before the increment, spinning, giving up *)
| RRHold.                       (* it has returned 1 *)
(** One access to the word by one process. *)
Inductive rp_step : Z -> rpc -> Z -> rpc -> Prop :=
| rp_call_w w : rp_step w RIdle w RWTry
| rp_cas_ok : rp_step 0 RWTry 1 RWHold                                    (* 545, 563 *)
| rp_cas_no w : w <> 0 -> rp_step w RWTry w RWTry
| rp_w_timeout w : rp_step w RWTry w RIdle                                (* 572-573 *)
| rp_w_release w : rp_step w RWHold (Z.land w (-2)) RIdle                 (* 606 *)
| rp_call_r w : rp_step w RIdle w RRInc
| rp_inc w : rp_step w RRInc (w64 (w + 2)) RRCheck                        (* 640 *)
| rp_check_ok w : Z.land w 1 = 0 -> rp_step w RRCheck w RRHold            (* 643, 660 *)
| rp_check_no w : Z.land w 1 <> 0 -> rp_step w RRCheck w RRCheck
| rp_r_timeout w : Z.land w 1 <> 0 -> rp_step w RRCheck w RRBack          (* 666 *)
| rp_back w : rp_step w RRBack (w64 (w - 2)) RIdle                        (* 668 *)
| rp_r_release w : rp_step w RRHold (w64 (w - 2)) RIdle.                  (* 702 *)

(** * Writer-preference spin lock, 708-923 *)
Inductive wpc :=
| WIdle
| WWInc | WWTry | WWBack | WWHold | WWDec
| WRWait | WRRead | WRCas (readers : Z) | WRHold.
(** The words are the lock and the number of writers. *)
Inductive wp_step : Z * Z -> wpc -> Z * Z -> wpc -> Prop :=
| wp_call_w s : wp_step s WIdle s WWInc
| wp_inc w n : wp_step (w, n) WWInc (w, w64 (n + 1)) WWTry                 (* 737 *)
| wp_cas_ok n : wp_step (0, n) WWTry (1, n) WWHold                        (* 740, 758 *)
| wp_cas_no w n : w <> 0 -> wp_step (w, n) WWTry (w, n) WWTry
| wp_w_timeout s : wp_step s WWTry s WWBack
| wp_w_back w n : wp_step (w, n) WWBack (w, w64 (n - 1)) WIdle             (* 767 *)
| wp_w_release w n : wp_step (w, n) WWHold (Z.land w (-2), n) WWDec       (* 803 *)
| wp_w_dec w n : wp_step (w, n) WWDec (w, w64 (n - 1)) WIdle               (* 806 *)
| wp_call_r s : wp_step s WIdle s WRWait
| wp_nowriters w : wp_step (w, 0) WRWait (w, 0) WRRead                    (* 840, 859, 862 *)
| wp_writers w n : n <> 0 -> wp_step (w, n) WRWait (w, n) WRWait
| wp_r_timeout w n : n <> 0 -> wp_step (w, n) WRWait (w, n) WIdle         (* 867 *)
| wp_read w n : wp_step (w, n) WRRead (w, n) (WRCas (Z.land w (-2)))      (* 841, 882 *)
| wp_rcas_ok r n : wp_step (r, n) (WRCas r) (w64 (r + 2), n) WRHold       (* 842, 892 *)
| wp_rcas_no w r n : w <> r -> wp_step (w, n) (WRCas r) (w, n) WRWait     (* 842, 894 *)
| wp_r_release w n : wp_step (w, n) WRHold (w64 (w - 2), n) WIdle.        (* 917 *)

(** Processes take turns in any order. *)
Section Turns.
  Context {S P : Type}.
  Variable step : S -> P -> S -> P -> Prop.
  Inductive turns : S * list P -> S * list P -> Prop :=
  | turn s ps i p s' p' : nth_error ps i = Some p -> step s p s' p' -> turns (s, ps) (s', set_nth i p' ps).
End Turns.

(** * Queued lock *)
(** lock_queue_node, dblock.h 56-66 *)
Record qnode := { q_cell : Z; q_class : Z; q_waiting : Z; q_next : Z; q_prev : Z }.
(** syn_var_area, dballoc.h 343-350: queue_lock's word, tail, freelist, and the nodes. *)
Record qshared := { q_lock : Z; q_tail : Z; q_free : Z; q_nd : Z -> qnode }.
Definition lq_read : Z := 2.
Definition lq_write : Z := 4.

Definition put (nd : Z -> qnode) (a : Z) (x : qnode) : Z -> qnode := fun b => if b =? a then x else nd b.
Definition set_waiting (nd : Z -> qnode) (a v : Z) : Z -> qnode :=
  put nd a {| q_cell := q_cell (nd a); q_class := q_class (nd a); q_waiting := v; q_next := q_next (nd a); q_prev := q_prev (nd a) |}.
Definition set_next (nd : Z -> qnode) (a v : Z) : Z -> qnode :=
  put nd a {| q_cell := q_cell (nd a); q_class := q_class (nd a); q_waiting := q_waiting (nd a); q_next := v; q_prev := q_prev (nd a) |}.
Definition set_prev (nd : Z -> qnode) (a v : Z) : Z -> qnode :=
  put nd a {| q_cell := q_cell (nd a); q_class := q_class (nd a); q_waiting := q_waiting (nd a); q_next := q_next (nd a); q_prev := v |}.
Definition set_cell_of (nd : Z -> qnode) (a v : Z) : Z -> qnode :=
  put nd a {| q_cell := v; q_class := q_class (nd a); q_waiting := q_waiting (nd a); q_next := q_next (nd a); q_prev := q_prev (nd a) |}.
Definition set_class (nd : Z -> qnode) (a v : Z) : Z -> qnode :=
  put nd a {| q_cell := q_cell (nd a); q_class := v; q_waiting := q_waiting (nd a); q_next := q_next (nd a); q_prev := q_prev (nd a) |}.
Definition with_nd (s : qshared) (nd : Z -> qnode) : qshared := {| q_lock := q_lock s; q_tail := q_tail s; q_free := q_free s; q_nd := nd |}.
Definition with_tail (s : qshared) (t : Z) : qshared := {| q_lock := q_lock s; q_tail := t; q_free := q_free s; q_nd := q_nd s |}.
Definition with_lock (s : qshared) (v : Z) : qshared := {| q_lock := v; q_tail := q_tail s; q_free := q_free s; q_nd := q_nd s |}.

(** free_lock 1396-1401 *)
Definition free_lock (s : qshared) (l : Z) : qshared :=
  {| q_lock := q_lock s; q_tail := q_tail s; q_free := l; q_nd := set_cell_of (q_nd s) l (q_free s) |}.

(** The critical sections, each one step of the process that holds the queue mutex.  Only such
    a process changes the queue; what others read meanwhile is the waiting word of their own
    node, which a section writes at most once. *)
(** 1009-1025 and 1123-1144: alloc_lock 1383-1394, then enqueue.  [None]: no cell left. *)
Definition enqueue (k : Z) (s : qshared) : option (Z * qshared) :=
  let l := q_free s in
  if l =? 0 then None
  else
    let s := {| q_lock := q_lock s; q_tail := q_tail s; q_free := q_cell (q_nd s l); q_nd := q_nd s |} in
    let prev := q_tail s in
    let s := with_tail s l in
    let nd := set_next (set_prev (set_class (q_nd s) l k) l prev) l 0 in
    let nd :=
      if negb (prev =? 0) then
        let nd := set_next nd prev l in
        if (k =? lq_read) && (q_class (nd prev) =? lq_read) && (q_waiting (nd prev) =? 0)
        then set_waiting nd l 0 else set_waiting nd l 1
      else set_waiting nd l 0 in
    Some (l, with_nd s nd).

(** DEQUEUE_LOCK 157-167 and free_lock, 1035-1036 and 1154-1155 *)
Definition dequeue (l : Z) (s : qshared) : qshared :=
  let p := q_prev (q_nd s l) in
  let n := q_next (q_nd s l) in
  let s := if negb (p =? 0) then with_nd s (set_next (q_nd s) p n) else s in
  let s := if negb (n =? 0) then with_nd s (set_prev (q_nd s) n (q_prev (q_nd s l)))
           else if q_tail s =? l then with_tail s (q_prev (q_nd s l)) else s in
  free_lock s l.

(** 1071-1079: the address to wake, 0 for none *)
Definition release_w (l : Z) (s : qshared) : Z * qshared :=
  let n := q_next (q_nd s l) in
  if negb (n =? 0) then
    let s := with_nd s (set_prev (set_waiting (q_nd s) n 0) n 0) in
    (n, free_lock s l)
  else if q_tail s =? l then (0, free_lock (with_tail s 0) l)
  else (0, free_lock s l).

(** 1207-1221 *)
Definition release_r (l : Z) (s : qshared) : Z * qshared :=
  let p := q_prev (q_nd s l) in
  let n := q_next (q_nd s l) in
  let s := if negb (p =? 0) then with_nd s (set_next (q_nd s) p n) else s in
  if negb (n =? 0) then
    let s := with_nd s (set_prev (q_nd s) n p) in
    if negb (q_waiting (q_nd s n) =? 0) && ((p =? 0) || (q_class (q_nd s n) =? lq_read))
    then (n, free_lock (with_nd s (set_waiting (q_nd s) n 0)) l)
    else (0, free_lock s l)
  else if q_tail s =? l then (0, free_lock (with_tail s p) l)
  else (0, free_lock s l).
Definition release (k l : Z) (s : qshared) : Z * qshared :=
  if k =? lq_write then release_w l s else release_r l s.

(** 1167-1173: a reader that was woken wakes the reader after it *)
Definition chain (l : Z) (s : qshared) : Z * qshared :=
  let n := q_next (q_nd s l) in
  if negb (n =? 0) && (q_class (q_nd s n) =? lq_read) && negb (q_waiting (q_nd s n) =? 0)
  then (n, with_nd s (set_waiting (q_nd s) n 0)) else (0, s).

(** Program points; [k]: the class asked for, [l]: the node, [a]: the address to wake. *)
Inductive tpc :=
| TIdle
| TEnter (k : Z) | TIn (k : Z) | TFail                        (* 1008-1027: before, inside, no cell *)
| TOut (k l : Z) | TTest (k l : Z) | TWait (k l : Z)          (* unlock_queue 1027; 1029; the futex call *)
| TSleep (k l : Z)                                            (* asleep on the node's waiting word *)
| TGiveUp (k l : Z) | TGiveUpIn (k l : Z) | TGiveUpOut        (* 1034-1038 *)
| TWoken (l : Z) | TChainIn (l : Z) | TChainOut (l a : Z) | TChainWake (l a : Z)   (* 1166-1178 *)
| THold (k l : Z)                                             (* the call has returned the lock *)
| TRel (k l : Z) | TRelIn (k l : Z) | TRelOut (a : Z) | TRelWake (a : Z).          (* 1070-1089, 1206-1230 *)

(** After a wait that did not time out, 1048 and 1166. *)
Definition after_wait (k l : Z) : tpc := if k =? lq_read then TWoken l else THold k l.

(** One step of one process, apart from futex_wake on an address where somebody sleeps. *)
Inductive tq_step (interrupts : bool) : qshared -> tpc -> qshared -> tpc -> Prop :=
| tq_call_w s : tq_step interrupts s TIdle s (TEnter lq_write)
| tq_call_r s : tq_step interrupts s TIdle s (TEnter lq_read)
| tq_enter s k : q_lock s = 0 -> tq_step interrupts s (TEnter k) (with_lock s 1) (TIn k)
| tq_enqueue s k l s' : enqueue k s = Some (l, s') -> tq_step interrupts s (TIn k) s' (TOut k l)
| tq_nocell s k : enqueue k s = None -> tq_step interrupts s (TIn k) s TFail
| tq_fail s : tq_step interrupts s TFail (with_lock s 0) TIdle
| tq_out s k l : tq_step interrupts s (TOut k l) (with_lock s 0) (TTest k l)
| tq_granted s k l : q_waiting (q_nd s l) = 0 -> tq_step interrupts s (TTest k l) s (THold k l)
| tq_mustwait s k l : q_waiting (q_nd s l) <> 0 -> tq_step interrupts s (TTest k l) s (TWait k l)
(* FUTEX_WAIT sleeps if the word is still 1, and else returns EAGAIN *)
| tq_sleep s k l : q_waiting (q_nd s l) = 1 -> tq_step interrupts s (TWait k l) s (TSleep k l)
| tq_again s k l : q_waiting (q_nd s l) <> 1 -> tq_step interrupts s (TWait k l) s (after_wait k l)
| tq_timeout s k l : tq_step interrupts s (TSleep k l) s (TGiveUp k l)
(* a signal: EINTR, which is not ETIMEDOUT *)
| tq_interrupt s k l : interrupts = true -> tq_step interrupts s (TSleep k l) s (after_wait k l)
| tq_giveup s k l : q_lock s = 0 -> tq_step interrupts s (TGiveUp k l) (with_lock s 1) (TGiveUpIn k l)
| tq_dequeue s k l : tq_step interrupts s (TGiveUpIn k l) (dequeue l s) TGiveUpOut
| tq_giveup_out s : tq_step interrupts s TGiveUpOut (with_lock s 0) TIdle
| tq_woken s l : q_lock s = 0 -> tq_step interrupts s (TWoken l) (with_lock s 1) (TChainIn l)
| tq_chain s l a s' : chain l s = (a, s') -> tq_step interrupts s (TChainIn l) s' (TChainOut l a)
| tq_chain_out s l a : tq_step interrupts s (TChainOut l a) (with_lock s 0) (TChainWake l a)
| tq_chain_wake s l a : tq_step interrupts s (TChainWake l a) s (THold lq_read l)
| tq_call_rel s k l : tq_step interrupts s (THold k l) s (TRel k l)
| tq_rel s k l : q_lock s = 0 -> tq_step interrupts s (TRel k l) (with_lock s 1) (TRelIn k l)
| tq_release s k l a s' : release k l s = (a, s') -> tq_step interrupts s (TRelIn k l) s' (TRelOut a)
| tq_rel_out s a : tq_step interrupts s (TRelOut a) (with_lock s 0) (TRelWake a)
| tq_rel_wake s a : tq_step interrupts s (TRelWake a) s TIdle.

(** futex_wake(addr, 1) wakes one of the processes asleep on the address, if there are any. *)
Inductive tq_wakes : tpc -> tpc -> Z -> Prop :=
| tw_chain l a : a <> 0 -> tq_wakes (TChainWake l a) (THold lq_read l) a
| tw_rel a : a <> 0 -> tq_wakes (TRelWake a) TIdle a.
Definition nobody_sleeps (a : Z) (ps : list tpc) : Prop := forall k, ~ In (TSleep k a) ps.

(** [late]: wake-ups that find the node's waiting word set (because it is another request by
    now) can happen; [interrupts]: signals can. *)
Inductive tq (late interrupts : bool) : qshared * list tpc -> qshared * list tpc -> Prop :=
| tq_one s ps i p s' p' : nth_error ps i = Some p -> tq_step interrupts s p s' p' ->
    (forall p'' a, tq_wakes p p'' a -> nobody_sleeps a ps) -> tq late interrupts (s, ps) (s', set_nth i p' ps)
| tq_wake s ps i p p' a j k : nth_error ps i = Some p -> tq_wakes p p' a -> nth_error ps j = Some (TSleep k a) ->
    late = true \/ q_waiting (q_nd s a) = 0 ->
    tq late interrupts (s, ps) (s, set_nth j (after_wait k a) (set_nth i p' ps)).

(** wg_init_locks 1258-1273: [n] cells of [pad] bytes from [base]. *)
Fixpoint cells_from (n : nat) (pad base : Z) (nd : Z -> qnode) : Z -> qnode :=
  match n with
  | O => nd
  | S n => set_cell_of (cells_from n pad (base + pad) nd) base (match n with O => 0 | _ => base + pad end)
  end.
Definition init_locks (n : nat) (pad base : Z) (nd : Z -> qnode) : qshared :=
  {| q_lock := 0; q_tail := 0; q_free := base; q_nd := cells_from n pad base nd |}.
