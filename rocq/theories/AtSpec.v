(** What the operations are documented to do (the comments at Db/dbdata.c 1020-1054, 1093-1101, 1141-1153),
    one call at a time. *)
From Coq Require Import List ZArith Bool.
From Verif Require Import AtModel.
Import ListNotations.
Open Scope Z_scope.

(** The word for the small integer [v]: the integer followed by the three bits 011.  Small integers have
    61 bits. *)
Definition int_word (v : Z) : Z := 8 * v + 3.
Definition small (v : Z) : Prop := - 2 ^ 60 <= v < 2 ^ 60.
Definition is_int (w : Z) : Prop := w mod 8 = 3.
(** The words that are not references to other places of the database: NULL and those ending in 11. *)
Definition immediate (w : Z) : Prop := w = 0 \/ w mod 4 = 3.
(** 29-bit integers. *)
Definition short (v : Z) : Prop := - 2 ^ 28 <= v < 2 ^ 28.

(** The memory after [w] was stored in field [f]. *)
Definition stored (m : memory) (f : nat) (w : Z) (m' : memory) : Prop :=
  m' f = w /\ forall g, g <> f -> m' g = m g.

(** [does m c r m']: the call [c], done at once on the memory [m], may return [r] and leave [m'].
    An addition that does not fit is refused with -16: [fits] says which results fit. *)
Inductive does (indexed : nat -> bool) (fits : Z -> Prop) (m : memory) : call -> Z -> memory -> Prop :=
| get_ok : forall f, does indexed fits m (Get f) (m f) m
| update_new : forall f d o, ~ immediate d -> does indexed fits m (Update f d o) (-10) m
| update_old : forall f d o, immediate d -> ~ immediate o -> does indexed fits m (Update f d o) (-11) m
| update_index : forall f d o, immediate d -> immediate o -> indexed f = true ->
    does indexed fits m (Update f d o) (-13) m
| update_changed : forall f d o, immediate d -> immediate o -> indexed f = false -> m f <> o ->
    does indexed fits m (Update f d o) (-15) m
| update_ok : forall f d o m', immediate d -> immediate o -> indexed f = false -> m f = o ->
    stored m f d m' -> does indexed fits m (Update f d o) 0 m'
| set_new : forall f d, ~ immediate d -> does indexed fits m (Set_ f d) (-10) m
| set_old : forall f d, immediate d -> ~ immediate (m f) -> does indexed fits m (Set_ f d) (-11) m
| set_index : forall f d, immediate d -> immediate (m f) -> indexed f = true ->
    does indexed fits m (Set_ f d) (-13) m
| set_tries : forall f d, immediate d -> indexed f = false -> does indexed fits m (Set_ f d) (-17) m
| set_ok : forall f d m', immediate d -> immediate (m f) -> indexed f = false ->
    stored m f d m' -> does indexed fits m (Set_ f d) 0 m'
| add_old : forall f n, ~ is_int (m f) -> does indexed fits m (Add f n) (-11) m
| add_index : forall f n v, m f = int_word v -> fits (v + n) -> indexed f = true ->
    does indexed fits m (Add f n) (-13) m
| add_large : forall f n v, m f = int_word v -> ~ fits (v + n) -> does indexed fits m (Add f n) (-16) m
| add_tries : forall f n, indexed f = false -> does indexed fits m (Add f n) (-17) m
| add_ok : forall f n v m', m f = int_word v -> fits (v + n) -> indexed f = false ->
    stored m f (int_word (v + n)) m' -> does indexed fits m (Add f n) 0 m'.

(** The calls of the log, done one after another. *)
Inductive one_by_one (indexed : nat -> bool) (fits : Z -> Prop) (m : memory)
    : list (nat * call * Z) -> memory -> Prop :=
| one_none : one_by_one indexed fits m nil m
| one_more : forall l m1 k c r m2, one_by_one indexed fits m l m1 -> does indexed fits m1 c r m2 ->
    one_by_one indexed fits m (l ++ [(k, c, r)]) m2.

(** The integers the fields hold at the start, and those the calls store, are not near 2^31. *)
Definition tame_word (w : Z) : Prop := forall v, w = int_word v -> - (2 ^ 31 - 2 ^ 28) < v < 2 ^ 31 - 2 ^ 28.
Definition tame_call (c : call) : Prop :=
  match c with
  | Get _ => True
  | Update _ d _ | Set_ _ d => tame_word d
  | Add _ n => - 2 ^ 31 <= n < 2 ^ 31
  end.
Definition tame (m : memory) (programs : list (list call)) : Prop :=
  (forall f, tame_word (m f)) /\ Forall (Forall tame_call) programs.

(** The calls of process [k] in the log. *)
Definition of_process (k : nat) (l : list (nat * call * Z)) : list call :=
  map (fun x => snd (fst x)) (filter (fun x => Nat.eqb (fst (fst x)) k) l).

(** The field a call is about; the sum of the numbers added to [f] by the calls that returned 0. *)
Definition field_of (c : call) : nat :=
  match c with Get f | Update f _ _ | Set_ f _ | Add f _ => f end.
Fixpoint added (f : nat) (l : list (nat * call * Z)) : Z :=
  match l with
  | (_, Add g n, 0) :: r => if Nat.eqb g f then n + added f r else added f r
  | _ :: r => added f r
  | nil => 0
  end.

(** How many calls of other processes than [k] changed the field [f]. *)
Definition changes (k f : nat) (l : list (nat * call * Z)) : nat :=
  length (filter (fun x => match x with
    | (j, Get _, _) => false
    | (j, c, r) => negb (Nat.eqb j k) && Nat.eqb (field_of c) f && (r =? 0)
    end) l).

(** [n] steps lead from [s] to [t]. *)
Inductive steps (indexed : nat -> bool) : nat -> system -> system -> Prop :=
| steps_0 : forall s, steps indexed 0 s s
| steps_S : forall n s t u, step indexed s t -> steps indexed n t u -> steps indexed (S n) s u.
