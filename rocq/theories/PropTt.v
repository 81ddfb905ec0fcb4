(** C36: the T-tree index mirrors the table. *)
From Coq Require Import List ZArith Bool Lia Sorted Permutation.
From Verif Require Import CmpModel CmpSpec CmpProof TtModel TtSpec TtProof TtShape TtChain TtSeek TtAdd TtDel TtEnd.
Import ListNotations.
Open Scope Z_scope.

(** After every history of additions, deletions and changes of the indexed field, in which no
    allocation fails: the rows in the index are the rows of the table, from left to right sorted
    by key; the tree is balanced; the chain of nodes runs through all nodes in both directions. *)
Theorem C36_mirror_partial : forall K (cmp : K -> K -> comparison), total_order cmp -> forall t, history K cmp t ->
  Permutation (rows (tr (index t))) (present t) /\ sorted cmp (value t) (rows (tr (index t))) /\
  balanced (tr (index t)) /\ linked (index t).
Proof. exact @mirror. Qed.
Print Assumptions C36_mirror_partial.

(** A search finds a row with an equal key if there is one, and returns 0 otherwise. *)
Theorem C36_search_partial : forall K (cmp : K -> K -> comparison), total_order cmp -> forall t k, history K cmp t ->
  exists v, search_index K cmp (value t) (index t) k = Some v /\
    (v <> 0 -> In v (present t) /\ cmp (value t v) k = Eq) /\
    (v = 0 -> forall e, In e (present t) -> cmp (value t e) k <> Eq).
Proof. exact @search_spec. Qed.
Print Assumptions C36_search_partial.

(** No operation on such an index fails or reads through offset 0. *)
Theorem C36_add_succeeds : forall K (cmp : K -> K -> comparison), total_order cmp -> forall t r k f, history K cmp t ->
  ~ In r (present t) -> f <> 0 -> ~ In f (nodes (tr (index t))) ->
  exists x, add_row K cmp (set_value (value t) r k) (index t) r f = Some (x, 0).
Proof. exact @add_works. Qed.
Print Assumptions C36_add_succeeds.
Theorem C36_remove_succeeds : forall K (cmp : K -> K -> comparison), total_order cmp -> forall t r, history K cmp t ->
  In r (present t) -> exists x, remove_row K cmp (value t) (index t) r = Some (x, 0).
Proof. exact @remove_works. Qed.
Print Assumptions C36_remove_succeeds.
(** Taking out a row that is not there is reported and changes nothing. *)
Theorem C36_remove_absent : forall K (cmp : K -> K -> comparison), total_order cmp -> forall t r, history K cmp t ->
  ~ In r (present t) ->
  exists e, remove_row K cmp (value t) (index t) r = Some (index t, e) /\ (e = -2 \/ e = -3).
Proof. exact @remove_nothing. Qed.
Print Assumptions C36_remove_absent.
(** Nodes are neither empty nor overfull. *)
Theorem C36_occupied_partial : forall K (cmp : K -> K -> comparison), total_order cmp -> forall t, history K cmp t ->
  present t <> [] -> occupied (tr (index t)).
Proof. exact @occupancy. Qed.
Print Assumptions C36_occupied_partial.

(** The orders that are meant: numbers, and the contents of fields (C37). *)
Example numbers_ordered : total_order Z.compare.
Proof.
  split; [apply Z.compare_refl|]. split; [apply Z.compare_antisym|]. intros a b c H1 H2. 
  change (a <= b) in H1. change (b <= c) in H2. change (a <= c). lia.
Qed.
Example contents_ordered : total_order order.
Proof.
  split; [exact order_refl|]. split; [exact order_opp|]. intros a b c H1 H2.
  destruct (order a b) eqn:E1; [|clear H1|contradiction].
  - apply order_eq in E1. now subst.
  - destruct (order b c) eqn:E2; [|clear H2|contradiction].
    + apply order_eq in E2. subst. congruence.
    + rewrite (order_trans a b c E1 E2). discriminate.
Qed.

(** A table of 90 rows with keys in a mixed order, some equal, half of them deleted again: *)
Definition empty : table Z := {| present := []; value := fun _ => 0; index := new_index Z 1 |}.
Definition adds : list (Z * Z * Z) :=
  map (fun i => let z := Z.of_nat i in (100 + z, (z * 37) mod 71, 1000 + z)) (seq 0 90).
Definition dels : list (Z * Z * Z) :=
  map (fun i => let z := Z.of_nat i in (100 + (z * 53) mod 90, 0, 0)) (seq 0 50).
Definition big : table Z := match run (adds ++ dels) empty with Some t => t | None => empty end.
Example big_history : history Z Z.compare big.
Proof. apply (run_history (adds ++ dels) empty); [apply h_new; discriminate|]. vm_compute. reflexivity. Qed.
Example big_shape : length (present big) = 40%nat /\ (length (nodes (tr (index big))) >= 7)%nat /\ levels (tr (index big)) >= 3.
Proof. vm_compute. repeat split; try discriminate; lia. Qed.
Example big_found : search_index Z Z.compare (value big) (index big) 20 = Some 137 /\ search_index Z Z.compare (value big) (index big) 23 = Some 0.
Proof. vm_compute. auto. Qed.

(** Without the assumption on allocation the statement is false.  The root is full and a row goes
    into the middle of it; the smallest row is moved out before the new node for it is allocated,
    so when that fails (code -1) the smallest row is no longer found although it is in the table. *)
Definition eight : table Z := match run (map (fun i => (10 + i, 2 * i, 100 + i)) [1; 2; 3; 4; 5; 6; 7; 8]) empty with Some t => t | None => empty end.
Theorem C36_refuted : exists t r k y m, history Z Z.compare t /\ ~ In r (present t) /\
  add_row Z Z.compare (set_value (value t) r k) (index t) r 0 = Some (y, -1) /\
  In m (present t) /\ search_index Z Z.compare (value t) (index t) (value t m) = Some m /\
  search_index Z Z.compare (set_value (value t) r k) y (value t m) = Some 0.
Proof.
  exists eight, 50, 5.
  destruct (add_row Z Z.compare (set_value (value eight) 50 5) (index eight) 50 0) as [[y e]|] eqn:Ea; [|vm_compute in Ea; discriminate].
  exists y, 11. split; [apply (run_history (map (fun i => (10 + i, 2 * i, 100 + i)) [1; 2; 3; 4; 5; 6; 7; 8]) empty); [apply h_new; discriminate|]; vm_compute; reflexivity|].
  assert (e = -1) as -> by (vm_compute in Ea; injection Ea as _ <-; reflexivity).
  split; [vm_compute; intuition discriminate|]. split; [reflexivity|]. split; [vm_compute; tauto|]. split; [vm_compute; reflexivity|].
  vm_compute in Ea. injection Ea as <-. vm_compute. reflexivity.
Qed.
Print Assumptions C36_refuted.
