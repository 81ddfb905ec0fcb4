(** C47 for the program as it is compiled (QUICK_REASONER, Db/dbdata.c 84). *)
From Coq Require Import List ZArith Bool Lia.
From Verif Require Import TtModel TtSpec QyModel QySpec QyPick QyOps QyRun QkModel QkSpec QkProof PropTt PropQy.
Import ListNotations.
Open Scope Z_scope.

(** After every history in which a record is created or written to only while no index exists
    that has it in it (before the write) or should have it (after the write): queries are exact. *)
Theorem C47_shipped_query_partial : forall K (cmp : K -> K -> comparison) null same, total_order cmp ->
  forall d m args limit n, qhistory cmp null (unconcerned cmp) d -> ~ empty_gap cmp args -> (length (recs K d) < n)%nat ->
  exists q l, make_query K cmp null same n d m args limit = Some (Some q) /\
    (NoDup l /\ forall r, In r l <-> exists f, In (r, f) (recs K d) /\ Forall (meets cmp f) args /\ match m with Some m => agrees cmp m f | None => True end) /\
    yields cmp null n q (if Nat.eqb limit 0 then l else firstn limit l).
Proof. intros K cmp null same TO d m args limit n H Hg Hn. exact (query_ok cmp null same TO n d m args limit (qhistory_good cmp null TO d H) Hg Hn). Qed.
Print Assumptions C47_shipped_query_partial.

(** Records are written, indexes on two columns are made, some records are deleted; a record
    without the columns indexed comes later. *)
Definition qacts : list op :=
  flat_map (fun i => let z := Z.of_nat i in [Ocreate (i / 2) (100 + z) 2; Ofill 0 (100 + z) [0; (z * 37) mod 23]; Ofill 0 (100 + z) [1; 5 + z mod 3]]) (seq 0 40) ++
  [Oindex 1 None 5; Oindex 1 (Some [Some 3; None]) 6] ++ map (fun i => Odelete (100 + 6 * Z.of_nat i + 1)) (seq 0 6) ++
  [Ocreate 3 90 1; Ofill 0 90 [0; 3]; Oset 90 0 4].
Definition qtable : zdb := qran true qacts.
Example qtable_history : qhistory Z.compare 0 (unconcerned Z.compare) qtable.
Proof. apply (qran_history true). vm_compute. reflexivity. Qed.
Example qtable_queries :
  ask 100 qtable None [Cnd 1 CEq 7] = Some [111; 105; 117; 123; 129; 135; 138; 132; 126; 120; 114; 108; 102] /\
  ask 100 qtable (Some [Some 3]) [Cnd 1 CGe 6] = Some [138] /\
  ask 100 qtable None [Cnd 0 CEq 3] = Some [90; 115; 138] /\ length (hdrs Z qtable) = 2%nat /\ length (recs Z qtable) = 35%nat.
Proof. vm_compute. auto. Qed.

(* ---- what fails ---- *)
(** wg_set_field returns 0, and the field is as before: a query for the new value does not return
    the record. *)
Definition unset : zdb := qran true [Ocreate 0 10 1; Ofill 0 10 [0; 5]; Oset 10 0 7].
Theorem C47_shipped_set_refuted : exists d d' r f c v q q', qhistory Z.compare 0 (unconcerned Z.compare) d /\ In (r, f) (recs Z d) /\ (c < length f)%nat /\
  qset_field Z d r c v = (d', 0) /\
  make_query Z Z.compare 0 Z.eqb 100 d' None [Cnd c CEq v] 0 = Some (Some q) /\ fetch Z Z.compare 0 100 d' q = Some (None, q').
Proof.
  destruct (make_query Z Z.compare 0 Z.eqb 100 unset None [Cnd 0 CEq 7] 0) as [[q|]|] eqn:E; try (vm_compute in E; discriminate).
  destruct (fetch Z Z.compare 0 100 unset q) as [[[r|] q']|] eqn:E2; try (vm_compute in E; injection E as <-; vm_compute in E2; discriminate).
  exists unset, unset, 10, [5], 0%nat, 7, q, q'.
  split; [apply (qran_history true); vm_compute; reflexivity|]. split; [vm_compute; auto|]. split; [cbn; lia|]. split; [reflexivity|]. split; [exact E|exact E2].
Qed.
Print Assumptions C47_shipped_set_refuted.
(** A record written after an index on its column was made is not returned by queries that use
    the index; without the index it is. *)
Definition unseen : zdb := qran false [Oindex 0 None 5; Ocreate 0 10 1; Ofill 0 10 [0; 7]].
Theorem C47_shipped_insert_refuted : exists d r f args q q', qhistory Z.compare 0 (fun _ _ => True) d /\ In (r, f) (recs Z d) /\ Forall (meets Z.compare f) args /\
  make_query Z Z.compare 0 Z.eqb 100 d None args 0 = Some (Some q) /\ fetch Z Z.compare 0 100 d q = Some (None, q') /\
  ask 100 (fst (drop_index Z d 5)) None args = Some [r].
Proof.
  destruct (make_query Z Z.compare 0 Z.eqb 100 unseen None [Cnd 0 CEq 7] 0) as [[q|]|] eqn:E; try (vm_compute in E; discriminate).
  destruct (fetch Z Z.compare 0 100 unseen q) as [[[r|] q']|] eqn:E2; try (vm_compute in E; injection E as <-; vm_compute in E2; discriminate).
  exists unseen, 10, [7], [Cnd 0 CEq 7], q, q'. split; [apply (qran_history false); vm_compute; reflexivity|]. split; [vm_compute; auto|].
  split; [constructor; [exists 7; split; reflexivity|constructor]|]. split; [exact E|]. split; [exact E2|]. vm_compute. reflexivity.
Qed.
Print Assumptions C47_shipped_insert_refuted.
