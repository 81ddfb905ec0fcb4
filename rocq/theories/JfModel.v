(** The files of the journal: starting and stopping, backups, writing from several processes.
    Code: Db/dblog.c 135-265 (check_journal, backup_journal, open_journal), 778-862 (start, stop), 872-935
    (replay), 940-992 (write_log_buffer); Db/dbdump.c 127-168 (dump), 333-356 (import); Db/dballoc.c 457-459.

    Files are numbered as they are created (inodes); a name leads to a file or to none.  Opening, writing
    and renaming succeed; nobody else changes the files.  Operations of different processes do not
    overlap (they hold the write lock). *)
From Coq Require Import ZArith List Bool Arith.
Import ListNotations.
Open Scope Z_scope.

(** dblog.h 38-40 *)
Definition MAGIC : list Z := [119; 103; 100; 98].
Definition MAX_BACKUPS := 10%nat.
(** [jr]: the journal; [bk i]: its backup i; [hnd p]: the open file and the serial number that process p keeps *)
Record st := mkS {
  jr : option nat; bk : nat -> option nat; data : nat -> list Z; mtime : nat -> Z; nexti : nat;
  active : bool; dirty : bool; serial : Z; hnd : nat -> option (nat * Z) }.
Definition upn {A} (f : nat -> A) (k : nat) (x : A) : nat -> A := fun j => if Nat.eqb j k then x else f j.
Definition set_flags (s : st) (a d : bool) : st := mkS (jr s) (bk s) (data s) (mtime s) (nexti s) a d (serial s) (hnd s).
Definition set_hnd (s : st) (p : nat) (x : option (nat * Z)) : st :=
  mkS (jr s) (bk s) (data s) (mtime s) (nexti s) (active s) (dirty s) (serial s) (upn (hnd s) p x).
Definition set_data (s : st) (i : nat) (d : list Z) (tm : Z) : st :=
  mkS (jr s) (bk s) (upn (data s) i d) (upn (mtime s) i tm) (nexti s) (active s) (dirty s) (serial s) (hnd s).

(** backup_journal 165-209: the times of the backups there are *)
Fixpoint pick_backup (l : list (option Z)) (i : nat) (oldest : Z) (logidx : nat) : nat :=
  match l with
  | [] => logidx
  | None :: _ => i
  | Some t :: r => if (oldest =? 0) || (oldest >? t) then pick_backup r (S i) t i else pick_backup r (S i) oldest logidx
  end.
Definition backup_index (s : st) : nat := pick_backup (map (fun i => option_map (mtime s) (bk s i)) (seq 0 MAX_BACKUPS)) 0 0 0.
Definition backup_journal (s : st) (i : nat) : st :=
  mkS None (upn (bk s) (backup_index s) (Some i)) (data s) (mtime s) (nexti s) (active s) (dirty s) (serial s + 1) (hnd s).
(** open_journal 215-265 with create, and without *)
Definition create_journal (s : st) : nat * st :=
  let s := match jr s with Some i => if dirty s then s else backup_journal s i | None => s end in
  match jr s with
  | Some i => (i, s)
  | None => (nexti s, mkS (Some (nexti s)) (bk s) (upn (data s) (nexti s) []) (mtime s) (S (nexti s)) (active s) (dirty s) (serial s) (hnd s))
  end.
(** check_journal 135-154 *)
Definition check_journal (s : st) (i : nat) : bool :=
  if list_eq_dec Z.eq_dec (firstn 4 (data s i)) MAGIC then true else false.
(** wg_start_logging 782-838 at the time [tm] *)
Definition start_logging (s : st) (tm : Z) : st :=
  if active s then s
  else
    let '(i, s) := create_journal s in
    if negb (dirty s) then set_flags (set_data s i MAGIC tm) true (dirty s)
    else if check_journal s i then set_flags s true (dirty s) else s.
(** wg_stop_logging 845-859 *)
Definition stop_logging (s : st) : st := set_flags s false (dirty s).
(** write_log_buffer 940-992 by the process [p] *)
Definition write_log (s : st) (p : nat) (buf : list Z) (tm : Z) : st :=
  let s := match hnd s p with Some (_, k) => if k =? serial s then s else set_hnd s p None | None => s end in
  let s := match hnd s p with
           | Some _ => s
           | None => match jr s with
                     | Some i => if check_journal s i then set_hnd s p (Some (i, serial s)) else s
                     | None => s
                     end
           end in
  match hnd s p with
  | None => s
  | Some (i, _) => let s := set_flags s (active s) true in set_data s i (data s i ++ buf) tm
  end.
(** The logging part of wg_dump_internal 127-168, of wg_replay_log 889-931 when it succeeds, and of
    wg_import_dump 333-353: the header comes from the dump, [k] is the serial number in it *)
Definition dump (s : st) (tm : Z) : st :=
  if active s then start_logging (set_flags (stop_logging s) false false) tm else s.
Definition replay_log (s : st) (tm : Z) : st :=
  let a := active s in
  let s := set_flags s false false in
  if a then start_logging s tm else s.
Definition import_dump (s : st) (k : Z) (tm : Z) : st :=
  let a := active s in
  let s := mkS (jr s) (bk s) (data s) (mtime s) (nexti s) false false k (hnd s) in
  if a then start_logging s tm else s.
Inductive op := Start (tm : Z) | Stop | Log (p : nat) (buf : list Z) (tm : Z) | Dump (tm : Z) | Replay (tm : Z) | Import (k tm : Z).
Definition step (s : st) (o : op) : st :=
  match o with
  | Start tm => start_logging s tm
  | Stop => if active s then stop_logging s else s
  | Log p buf tm => if active s then write_log s p buf tm else s
  | Dump tm => dump s tm
  | Replay tm => replay_log s tm
  | Import k tm => import_dump s k tm
  end.
(** A new database, wg_init_db dballoc.c 457-459, with whatever files there are *)
Definition fresh (s : st) : Prop :=
  active s = false /\ dirty s = false /\ serial s = 1 /\ (forall p, hnd s p = None) /\
  (forall i, jr s = Some i -> (i < nexti s)%nat) /\ (forall b i, bk s b = Some i -> (i < nexti s)%nat /\ jr s <> Some i).
