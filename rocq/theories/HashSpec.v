(** Histories of the stores, and what a look-up should find. *)
From Coq Require Import List ZArith Bool.
From Verif Require Import Terms MatchModel VecModel HashModel.
Import ListNotations.
Open Scope Z_scope.

(** A store of unit literals after storing the (literal word, clause) pairs of the list, oldest
    first. *)
Inductive units (dhash : dblv -> Z) (ltext : Z -> list Z) (den : Z -> term) (len : Z) : list (Z * Z) -> harr -> Prop :=
| u_new : 2 <= len -> units dhash ltext den len [] (new_harr len)
| u_store h st ok0 ok1 ok2 junk w cl st' : units dhash ltext den len h st -> Z.of_nat (length h) < 2 ^ 28 ->
    store_unit dhash ltext den ok0 ok1 ok2 junk st w cl = Some st' ->
    units dhash ltext den len (h ++ [(w, cl)]) st'.

(** Hash lists after additions, newest first: (slot, (term, clause, path)).  malloc returns
    addresses not in use. *)
Inductive lists (len : Z) : list Z -> list (Z * (Z * Z * Z)) -> hlist -> Prop :=
| l_new nd : lists len [] [] (new_hlist len nd)
| l_add used h l k t c p a0 a1 l' : lists len used h l ->
    a0 <> 0 -> a1 <> 0 -> a0 <> a1 -> ~ In a0 used -> ~ In a1 used ->
    add_hashlist l k t c p a0 a1 = LOk l' ->
    lists len (a0 :: a1 :: used) ((k, (t, c, p)) :: h) l'.

(** The entries made under slot [k]. *)
Definition under (k : Z) (h : list (Z * (Z * Z * Z))) : list (Z * Z * Z) :=
  map snd (filter (fun e => fst e =? k) h).

Definition flat (addrs : list (Z * Z)) : list Z := flat_map (fun a => [fst a; snd a]) addrs.
(** The index after storing atoms, newest first: (atom word, clause). *)
Inductive index (dhash : dblv -> Z) (ltext : Z -> list Z) (den : Z -> term) (len : Z) : list Z -> list (Z * Z) -> hlist -> Prop :=
| x_new nd : index dhash ltext den len [] [] (new_hlist len nd)
| x_store used h l w cl addrs l' : index dhash ltext den len used h l ->
    NoDup (flat addrs) -> (forall a, In a (flat addrs) -> a <> 0 /\ ~ In a used) ->
    store_atom dhash ltext den l w cl addrs = LOk l' ->
    index dhash ltext den len (flat addrs ++ used) ((w, cl) :: h) l'.

(** Atoms with a predicate symbol. *)
Definition has_symbol (t : term) : Prop := exists c ts, t = TRec (TCst c :: ts).
(** Atoms that have a common instance, each with variables of its own. *)
Definition common_instance (x y : term) : Prop := exists s s', app s x = app s' y.
(** A slot number of an array of length [len]. *)
Definition is_slot (len k : Z) : Prop := 1 <= k < len.
