(** Specification vocabulary for the T-tree index. *)
From Coq Require Import List ZArith Sorted.
From Verif Require Import TtModel.
Import ListNotations.
Open Scope Z_scope.

(** The comparison of keys is a total order: a value is equal to itself, swapping the arguments
    swaps the verdict, "not greater" is transitive. *)
Definition total_order {K} (cmp : K -> K -> comparison) : Prop :=
  (forall a, cmp a a = Eq) /\ (forall a b, cmp b a = CompOpp (cmp a b)) /\
  (forall a b c, cmp a b <> Gt -> cmp b c <> Gt -> cmp a c <> Gt).

(** The rows of the index from left to right. *)
Fixpoint rows {K} (t : tree K) : list Z :=
  match t with
  | E _ => []
  | N _ c _ _ l r => rows l ++ els K c ++ rows r
  end.
(** The nodes from left to right. *)
Fixpoint nodes {K} (t : tree K) : list Z :=
  match t with
  | E _ => []
  | N _ c _ _ l r => nodes l ++ cid K c :: nodes r
  end.
(** The number of levels. *)
Fixpoint levels {K} (t : tree K) : Z :=
  match t with
  | E _ => 0
  | N _ _ _ _ l r => 1 + Z.max (levels l) (levels r)
  end.
(** The two sides of every node differ by at most one level. *)
Fixpoint balanced {K} (t : tree K) : Prop :=
  match t with
  | E _ => True
  | N _ _ _ _ l r => -1 <= levels l - levels r <= 1 /\ balanced l /\ balanced r
  end.
(** Sorted by key, equal keys allowed. *)
Definition sorted {K} (cmp : K -> K -> comparison) (key : Z -> K) (l : list Z) : Prop :=
  StronglySorted (fun a b => cmp (key a) (key b) <> Gt) l.
(** Following the links from the first node meets all nodes from left to right, and from the last
    node all from right to left. *)
Fixpoint follows (next : Z -> Z) (first : Z) (l : list Z) : Prop :=
  match l with
  | [] => first = 0
  | i :: l => first = i /\ follows next (next i) l
  end.
Definition linked {K} (x : ix K) : Prop :=
  follows (succ K x) (minp K x) (nodes (tr K x)) /\ follows (pred K x) (maxp K x) (rev (nodes (tr K x))).

(** The table: its rows, the value of the indexed field in each row, and the index. *)
Record table K := { present : list Z; value : Z -> K; index : ix K }.
Definition set_value {K} (v : Z -> K) (r : Z) (k : K) : Z -> K := fun x => if x =? r then k else v x.
Section Hist.
Variable K : Type.
Variable cmp : K -> K -> comparison.
(** One change of the table, when no allocation fails: a record is added (dbdata.c 165), deleted
    (275), or its indexed field is given another value (700, 800: taken out of the index, changed,
    put in again).  [f] is the offset of the node allocated if one is needed. *)
Inductive change : table K -> table K -> Prop :=
| ch_add t r k f x : r <> 0 -> ~ In r (present K t) -> f <> 0 -> ~ In f (nodes (tr K (index K t))) ->
    add_row K cmp (set_value (value K t) r k) (index K t) r f = Some (x, 0) ->
    change t {| present := r :: present K t; value := set_value (value K t) r k; index := x |}
| ch_del t r x : In r (present K t) ->
    remove_row K cmp (value K t) (index K t) r = Some (x, 0) ->
    change t {| present := remove Z.eq_dec r (present K t); value := value K t; index := x |}
| ch_set t r k f x y : In r (present K t) -> f <> 0 -> ~ In f (nodes (tr K x)) ->
    remove_row K cmp (value K t) (index K t) r = Some (x, 0) ->
    add_row K cmp (set_value (value K t) r k) x r f = Some (y, 0) ->
    change t {| present := present K t; value := set_value (value K t) r k; index := y |}.
(** Reached from an empty table with a new index. *)
Inductive history : table K -> Prop :=
| h_new v root : root <> 0 -> history {| present := []; value := v; index := new_index K root |}
| h_step t u : history t -> change t u -> history u.
End Hist.
(** Every node holds at least one row and at most as many as fit into it. *)
Fixpoint occupied {K} (t : tree K) : Prop :=
  match t with
  | E _ => True
  | N _ c _ _ l r => (1 <= length (els K c) <= 8)%nat /\ occupied l /\ occupied r
  end.
