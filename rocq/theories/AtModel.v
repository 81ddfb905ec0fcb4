(** Model of the field operations that need no write lock: wg_get_field, wg_update_atomic_field,
    wg_set_atomic_field and wg_add_int_atomic_field, called by any number of processes at once.
    Code: Db/dbdata.c 1056-1213; Db/dbdata.h 336-338, 437-460; Db/dblock.c 422-450 (compare and swap).

    Simplifications.  A field is named by a number, which stands for the record and the field number; the
    memory gives the word stored in it.  Reading a word and compare-and-swap are single steps (aligned
    64-bit words, __sync_bool_compare_and_swap, sequentially consistent).  The tests between them touch no
    shared word - whether a field has an index (dbdata.c 1069-1078) does not change, since every caller holds
    a read lock - and are done with the step before.  The sleeping every ten rounds (1127-1135) is left out,
    as a process may stop for any time at any point anyway.  No logging (USE_DBLOG is not defined), no CHECK. *)
From Coq Require Import List ZArith Bool.
From Verif Require Import Word64 EncModel.
Import ListNotations.
Open Scope Z_scope.

(** dbdata.h 437-460 *)
Definition isptr (w : Z) : bool := negb (w =? 0) && negb (Z.land w 3 =? 3).
Definition isimmediatedata (w : Z) : bool := (w =? 0) || (negb (isptr w) && negb (isfullint w)).

(** fits_smallint and encode_smallint (dbdata.h 336-337) on the variable [sum], which is a 32-bit int
    (dbdata.c 1158, 1175-1177). *)
Definition fits_smallint32 (i : Z) : bool := shr (shl32 i 3) 3 =? i.
Definition encode_smallint32 (i : Z) : Z := Z.lor (shl32 i 3) 3.

(** The calls.  The number given to [Add] is a C int. *)
Inductive call : Type :=
| Get (f : nat)
| Update (f : nat) (data old : Z)
| Set_ (f : nat) (data : Z)
| Add (f : nat) (n : Z).

Definition memory := nat -> Z.
Definition write (m : memory) (f : nat) (w : Z) : memory := fun g => if Nat.eqb g f then w else m g.

(** Where a process is: between calls; at the start of round [i] of the loop of a call (dbdata.c 1118-1121,
    1170-1173); or about to compare-and-swap in round [i], having read [old], with [new] to be stored. *)
Inductive place : Type :=
| Between
| Round (c : call) (i : nat)
| Swap (c : call) (i : nat) (f : nat) (old new : Z).

Record process : Type := Process { todo : list call; at_ : place }.

Section Calls.
Variable indexed : nat -> bool.   (* the field has an index or an index template: dbdata.c 1070-1072 *)

(** The tests at the start of wg_update_atomic_field, dbdata.c 1066-1078: an error, or none. *)
Definition update_tests (f : nat) (data old : Z) : option Z :=
  if negb (isimmediatedata data) then Some (-10)
  else if negb (isimmediatedata old) then Some (-11)
  else if indexed f then Some (-13)
  else None.

(** One step of a process: the new memory, the new state, and the call that returned with its value, if one
    did.  [None]: the process is done. *)
Definition move (m : memory) (p : process) : option (memory * process * option (call * Z)) :=
  match at_ p with
  | Between =>
      match todo p with
      | nil => None
      | Get f :: r => Some (m, Process r Between, Some (Get f, m f))            (* 1212 *)
      | Update f d o :: r =>                                                    (* 1056-1090 *)
          match update_tests f d o with
          | Some e => Some (m, Process r Between, Some (Update f d o, e))
          | None =>
              if m f =? o then Some (write m f d, Process r Between, Some (Update f d o, 0))
              else Some (m, Process r Between, Some (Update f d o, -15))
          end
      | c :: r => Some (m, Process r (Round c 0), None)
      end
  | Round c i =>
      match c with
      | Set_ f d =>                                                             (* 1121-1122 *)
          match update_tests f d (m f) with
          | Some e => Some (m, Process (todo p) Between, Some (c, e))
          | None => Some (m, Process (todo p) (Swap c i f (m f) d), None)
          end
      | Add f n =>                                                              (* 1173-1178 *)
          let old := m f in
          if negb (issmallint old) then Some (m, Process (todo p) Between, Some (c, -11))
          else
            let sum := w32 (decode_smallint old + n) in
            if negb (fits_smallint32 sum) then Some (m, Process (todo p) Between, Some (c, -16))
            else
              let nxt := encode_smallint32 sum in
              match update_tests f nxt old with
              | Some e => Some (m, Process (todo p) Between, Some (c, e))
              | None => Some (m, Process (todo p) (Swap c i f old nxt), None)
              end
      | _ => None
      end
  | Swap c i f old new =>                                                       (* 1087-1089, 1123-1126 *)
      if m f =? old then Some (write m f new, Process (todo p) Between, Some (c, 0))
      else if Nat.ltb 1000 i then Some (m, Process (todo p) Between, Some (c, -17))
      else Some (m, Process (todo p) (Round c (S i)), None)
  end.

(** All processes: the memory, the processes, and the calls in the order in which they returned. *)
Record system : Type := System { mem : memory; procs : list process; log : list (nat * call * Z) }.

Fixpoint set_nth (k : nat) (p : process) (l : list process) : list process :=
  match l, k with
  | nil, _ => nil
  | _ :: r, O => p :: r
  | q :: r, S k' => q :: set_nth k' p r
  end.

(** Any process may make the next step. *)
Inductive step : system -> system -> Prop :=
| step_move : forall s k p m' p' e,
    nth_error (procs s) k = Some p ->
    move (mem s) p = Some (m', p', e) ->
    step s (System m' (set_nth k p' (procs s))
              (log s ++ match e with Some (c, r) => (k, c, r) :: nil | None => nil end)).

Definition start (m : memory) (programs : list (list call)) : system :=
  System m (map (fun l => Process l Between) programs) nil.

Inductive reaches : system -> system -> Prop :=
| reaches_refl : forall s, reaches s s
| reaches_step : forall s t u, reaches s t -> step t u -> reaches s u.

End Calls.
