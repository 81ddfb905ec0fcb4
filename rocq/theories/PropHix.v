(** C69: hash indexes. *)
From Coq Require Import List ZArith Bool Lia.
From Verif Require Import HixModel HixSpec HixEnd.
Import ListNotations.
Open Scope Z_scope.

(* ---- histories that can be run ---- *)
Inductive op := OCreate (p : nat) (r : Z) (len : nat) | ORaw (p : nat) (r : Z) (len : nat) | OSet (r c : Z) (v : val) | ONew (r c : Z) (v : val)
  | ODelete (r : Z) | OIndex (columns : list Z).
Definition free (d : db) (r : Z) : bool := (0 <? r) && match fields_of (recs d) r with None => true | Some _ => false end.
Definition no_index (d : db) : bool := match ixs d with [] => true | _ => false end.
Definition when (b : bool) (x : option (db * Z)) (w : Z -> bool) : option db := if b then match x with Some (d, x) => if w x then Some d else None | None => None end else None.
Section Run.
Variables (h : key -> Z) (quick ok : bool).
Definition fine (b : bool) : bool := if ok then b else true.
Definition exec (d : db) (o : op) : option db :=
  match o with
  | OCreate p r len => when (free d r && (negb quick || no_index d)) (create_record h quick d p r len) (fun x => fine (x =? r))
  | ORaw p r len => when (free d r && no_index d) (Some (create_raw d p r len, r)) (fun _ => true)
  | OSet r c v => when (0 <=? c) (set_field h quick d r c v) (fun x => fine (x =? 0))
  | ONew r c v => when ((0 <=? c) && no_index d) (set_new_field h quick d r c v) (fun _ => true)
  | ODelete r => when true (delete_record h d r) (fun x => fine (x =? 0))
  | OIndex cs => when true (create_index h d cs) (fun x => fine (x =? 0))
  end.
Lemma when_some b x w d' : when b x w = Some d' -> b = true /\ exists y, x = Some (d', y) /\ w y = true.
Proof. unfold when. destruct b; [|discriminate]. destruct x as [[d y]|]; [|discriminate]. destruct (w y) eqn:E; [|discriminate]. intros [= <-]. split; [reflexivity|eauto]. Qed.
Lemma fine_good b : fine b = true -> good ok b.
Proof. unfold fine, good. destruct ok; auto. Qed.
Lemma free_ok d r : free d r = true -> 0 < r /\ fields_of (recs d) r = None.
Proof. unfold free. intros H. apply andb_true_iff in H. destruct H as [H1 H2]. apply Z.ltb_lt in H1. split; [exact H1|]. destruct (fields_of (recs d) r); [discriminate|reflexivity]. Qed.
Lemma no_index_ok d : no_index d = true -> ixs d = [].
Proof. unfold no_index. destruct (ixs d); [reflexivity|discriminate]. Qed.
Lemma exec_step d o d' : exec d o = Some d' -> step h quick ok d d'.
Proof.
  destruct o as [p r len|p r len|r c v|r c v|r|cs]; cbn [exec]; intros H; apply when_some in H; destruct H as (B & y & E & W).
  - apply andb_true_iff in B. destruct B as [B1 B2]. destruct (free_ok _ _ B1) as [F1 F2]. apply (st_create h quick ok d p r len d' y F1 F2 E); [|exact (fine_good _ W)].
    intros ->. exact (no_index_ok _ B2).
  - apply andb_true_iff in B. destruct B as [B1 B2]. destruct (free_ok _ _ B1) as [F1 F2]. injection E as <- <-. exact (st_raw h quick ok d p r len F1 F2 (no_index_ok _ B2)).
  - apply Z.leb_le in B. exact (st_set h quick ok d r c v d' y B E (fine_good _ W)).
  - apply andb_true_iff in B. destruct B as [B1 B2]. apply Z.leb_le in B1. exact (st_set_new h quick ok d r c v d' y B1 (no_index_ok _ B2) E).
  - exact (st_delete h quick ok d r d' y E (fine_good _ W)).
  - exact (st_index h quick ok d cs d' y E (fine_good _ W)).
Qed.
Definition empty : db := {| recs := []; ixs := [] |}.
Definition run (l : list op) : option db := fold_left (fun s o => match s with Some d => exec d o | None => None end) l (Some empty).
Definition after (l : list op) : db := match run l with Some d => d | None => empty end.
Lemma run_reach l d : run l = Some d -> reach h quick ok d.
Proof.
  revert d. induction l as [|o l IH] using rev_ind; intros d.
  - intros [= <-]. constructor.
  - unfold run. rewrite fold_left_app. cbn. fold (run l). destruct (run l) as [d0|]; [|discriminate]. intros H. exact (r_step _ _ _ _ _ (IH d0 eq_refl) (exec_step _ _ _ H)).
Qed.
Lemma after_reach l : reach h quick ok (after l).
Proof. unfold after. destruct (run l) eqn:E; [exact (run_reach _ _ E)|constructor]. Qed.
End Run.
Definition nth_ix (d : db) (n : nat) : index := nth n (ixs d) {| cols := []; table := fun _ => [] |}.

(** A table of seven chains. *)
Definition xh (k : key) : Z := fold_left Z.add k 0 mod 7.
Definition ab := [97; 98].
(** Records, an index on columns 0 and 2, one on column 0; later changes, a deletion, a new record at
    the freed offset, a record too short for the first index. *)
Definition ops1 : list op :=
  [ OCreate 0 100 3; OSet 100 0 (VInt 5); OSet 100 2 (VStr ab); OCreate 1 200 4; OSet 200 0 (VInt 5);
    OIndex [2; 0]; OIndex [0]; OCreate 0 300 3; OSet 300 0 (VInt 5); OSet 300 2 (VStr ab); OSet 200 0 (VUri (Some [112]) [120]);
    OCreate 3 400 1; OSet 400 0 (VInt (-5)); ODelete 100; OCreate 2 100 3; OSet 100 2 (VStr ab); OSet 100 0 (VInt 5); OSet 300 1 (VBlob [0; 0]) ].
Definition d1 : db := after xh false true ops1.
Lemma d1_recs : recs d1 = [(300, [VInt 5; VBlob [0; 0]; VStr ab]); (200, [VUri (Some [112]) [120]; VNull; VNull; VNull]); (100, [VInt 5; VNull; VStr ab]); (400, [VInt (-5)])].
Proof. vm_compute. reflexivity. Qed.
Lemma d1_cols : map cols (ixs d1) = [[0; 2]; [0]].
Proof. vm_compute. reflexivity. Qed.
(** The same in the build as shipped: records are written first, then the index is made. *)
Definition ops2 : list op :=
  [ ORaw 0 100 2; ONew 100 0 (VInt 5); ONew 100 1 VNull; ORaw 1 200 3; ONew 200 0 (VInt 5); ONew 200 1 (VStr ab); OCreate 0 300 2; OIndex [1; 0]; ODelete 100; OSet 200 0 (VInt 6)].
Definition d2 : db := after xh true true ops2.

(** C69, searching: after any history of operations that all report success, over any hash function,
    a search in an index, for values a key can be made of and that can be told apart by their keys,
    returns exactly the records that have these values in the columns of the index, each once. *)
Theorem C69_search_partial : forall h quick d ix vals, reach h quick true d -> In ix (ixs d) -> length vals = length (cols ix) ->
  Forall hashable vals -> plain_row vals -> clear_rows d ix ->
  exists rows, search_hash h ix vals = Some rows /\ NoDup rows /\
    forall r, In r rows <-> exists fs, In (r, fs) (recs d) /\ has (cols ix) vals fs.
Proof.
  intros h quick d ix vals R Hi L Hh Hp Hc. destruct (search_ok h quick true d ix vals R Hi L Hh Hp Hc) as (rows & E & N & S1 & C).
  exists rows. split; [exact E|]. split; [exact N|]. intros r. split; [apply S1|]. intros (fs & X & Y). exact (C eq_refl r fs X Y).
Qed.
Print Assumptions C69_search_partial.
Ltac letters := unfold text; repeat (apply Forall_cons; [lia|]); apply Forall_nil.
Ltac one := cbn; unfold int32, word; first [exact Logic.I | lia | solve [letters] | solve [split; first [exact Logic.I | solve [letters]]]].
Ltac plain := split; [repeat (apply Forall_cons; [one|]); apply Forall_nil|cbn; repeat (apply Forall_cons; [exact Logic.I|]); apply Forall_nil].
Lemma has_two c1 c2 vs fs : has [c1; c2] vs fs -> exists v1 v2, vs = [v1; v2] /\ nth_error fs (Z.to_nat c1) = Some v1 /\ nth_error fs (Z.to_nat c2) = Some v2.
Proof. unfold has. intros H. inversion H as [|? v1 ? ? A1 A2]; subst. inversion A2 as [|? v2 ? ? A3 A4]; subst. inversion A4; subst. eauto. Qed.
Lemma has_one c1 vs fs : has [c1] vs fs -> exists v1, vs = [v1] /\ nth_error fs (Z.to_nat c1) = Some v1.
Proof. unfold has. intros H. inversion H as [|? v1 ? ? A1 A2]; subst. inversion A2; subst. eauto. Qed.
Lemma d1_ix0 : cols (nth_ix d1 0) = [0; 2] /\ In (nth_ix d1 0) (ixs d1).
Proof. split; [vm_compute; reflexivity|]. apply nth_In. assert (E : length (ixs d1) = 2%nat) by (vm_compute; reflexivity). rewrite E. lia. Qed.
Lemma d1_ix1 : cols (nth_ix d1 1) = [0] /\ In (nth_ix d1 1) (ixs d1).
Proof. split; [vm_compute; reflexivity|]. apply nth_In. assert (E : length (ixs d1) = 2%nat) by (vm_compute; reflexivity). rewrite E. lia. Qed.
Lemma d1_clear1 : clear_rows d1 (nth_ix d1 1).
Proof.
  intros r fs vs Hi Hh Hv. rewrite (proj1 d1_ix1) in Hh. rewrite d1_recs in Hi. destruct (has_one _ _ _ Hh) as (v1 & -> & E). cbn in Hi.
  repeat (destruct Hi as [[= <- <-]|Hi]; [cbn in E; injection E as <-; plain|]). destruct Hi.
Qed.
Example C69_nonvacuous_search :
  reach xh false true d1 /\ In (nth_ix d1 1) (ixs d1) /\ clear_rows d1 (nth_ix d1 1) /\ Forall hashable [VInt 5] /\ plain_row [VInt 5] /\
  search_hash xh (nth_ix d1 1) [VInt 5] = Some [100; 300] /\ search_hash xh (nth_ix d1 1) [VUri (Some [112]) [120]] = Some [200] /\
  search_hash xh (nth_ix d1 1) [VInt (-5)] = Some [400] /\ search_hash xh (nth_ix d1 1) [VNull] = Some [] /\
  search_hash xh (nth_ix d1 0) [VInt 5; VStr ab] = Some [100; 300] /\ search_hash xh (nth_ix d1 0) [VInt 5; VNull] = Some [].
Proof.
  split; [apply after_reach|]. split; [exact (proj2 d1_ix1)|]. split; [exact d1_clear1|]. split; [constructor; [exact Logic.I|constructor]|].
  split; [plain|]. repeat (split; [vm_compute; reflexivity|]). vm_compute. reflexivity.
Qed.
Example C69_nonvacuous_shipped : reach xh true true d2 /\ map cols (ixs d2) = [[0; 1]] /\ map fst (recs d2) = [300; 200] /\
  search_hash xh (nth_ix d2 0) [VInt 5; VStr ab] = Some [200] /\ search_hash xh (nth_ix d2 0) [VNull; VNull] = Some [300] /\ search_hash xh (nth_ix d2 0) [VInt 5; VNull] = Some [].
Proof. split; [apply after_reach|]. repeat (split; [vm_compute; reflexivity|]). vm_compute. reflexivity. Qed.

(** C69, after failures: also when operations have failed, a search returns only records there are,
    with the values asked for, each once. *)
Theorem C69_found_records_match_partial : forall h quick d ix vals, reach h quick false d -> In ix (ixs d) -> length vals = length (cols ix) ->
  Forall hashable vals -> plain_row vals -> clear_rows d ix ->
  exists rows, search_hash h ix vals = Some rows /\ NoDup rows /\
    forall r, In r rows -> exists fs, In (r, fs) (recs d) /\ has (cols ix) vals fs.
Proof.
  intros h quick d ix vals R Hi L Hh Hp Hc. destruct (search_ok h quick false d ix vals R Hi L Hh Hp Hc) as (rows & E & N & S1 & C).
  exists rows. split; [exact E|]. split; [exact N|]. exact S1.
Qed.
Print Assumptions C69_found_records_match_partial.
(** a value no key can be made of in one of the indexed columns *)
Definition ops3 : list op := [ OIndex [0; 1]; OIndex [0]; OCreate 0 100 2; OSet 100 0 (VInt 7); OSet 100 1 (VBlob [1]); OSet 100 0 (VInt 8) ].
Definition d3 : db := after xh false false ops3.
Lemma d3_ix1 : cols (nth_ix d3 1) = [0] /\ In (nth_ix d3 1) (ixs d3).
Proof. split; [vm_compute; reflexivity|]. apply nth_In. assert (E : length (ixs d3) = 2%nat) by (vm_compute; reflexivity). rewrite E. lia. Qed.
Lemma d3_recs : recs d3 = [(100, [VInt 8; VBlob [1]])].
Proof. vm_compute. reflexivity. Qed.
Lemma d3_clear1 : clear_rows d3 (nth_ix d3 1).
Proof.
  intros r fs vs Hi Hh Hv. rewrite (proj1 d3_ix1) in Hh. rewrite d3_recs in Hi. destruct (has_one _ _ _ Hh) as (v1 & -> & E). cbn in Hi.
  repeat (destruct Hi as [[= <- <-]|Hi]; [cbn in E; injection E as <-; plain|]). destruct Hi.
Qed.
Example C69_nonvacuous_found : reach xh false false d3 /\ In (nth_ix d3 1) (ixs d3) /\ clear_rows d3 (nth_ix d3 1) /\
  search_hash xh (nth_ix d3 1) [VInt 7] = Some [] /\ search_hash xh (nth_ix d3 0) [VInt 7; VNull] = Some [].
Proof. split; [apply after_reach|]. split; [exact (proj2 d3_ix1)|]. split; [exact d3_clear1|]. split; vm_compute; reflexivity. Qed.

(** C69, operations: creating a record at a free place, setting a field a record has and deleting a
    record read nothing past the end of a record, and deleting always reports success; nor does making
    an index, if each record that has one of the columns has them all. *)
Theorem C69_operations_defined : forall h quick ok d, reach h quick ok d ->
  (forall p r len, fields_of (recs d) r = None -> create_record h quick d p r len <> None) /\
  (forall r fs c v, In (r, fs) (recs d) -> 0 <= c < Z.of_nat (length fs) -> set_field h quick d r c v <> None) /\
  (forall r fs, In (r, fs) (recs d) -> exists d', delete_record h d r = Some (d', 0)) /\
  (forall columns, (forall r fs, In (r, fs) (recs d) -> forall c c', In c columns -> In c' columns ->
     0 <= c < Z.of_nat (length fs) -> c' < Z.of_nat (length fs)) -> create_index h d columns <> None).
Proof.
  intros h quick ok d R. split; [|split; [|split]].
  - intros p r len. apply (create_defined h quick ok). exact R.
  - intros r fs c v Hi Hc. exact (set_defined h quick ok d r c v fs R Hi Hc).
  - intros r fs. apply (delete_defined h quick ok). exact R.
  - intros columns. apply index_defined.
Qed.
Print Assumptions C69_operations_defined.
Example C69_nonvacuous_operations : reach xh false true d1 /\ fields_of (recs d1) 500 = None /\ In (400, [VInt (-5)]) (recs d1) /\
  create_index xh d1 [1; 2] <> None /\ (forall r fs, In (r, fs) (recs d1) -> forall c c', In c [1; 2] -> In c' [1; 2] -> 0 <= c < Z.of_nat (length fs) -> c' < Z.of_nat (length fs)).
Proof.
  assert (Q : forall r fs, In (r, fs) (recs d1) -> forall c c', In c [1; 2] -> In c' [1; 2] -> 0 <= c < Z.of_nat (length fs) -> c' < Z.of_nat (length fs)).
  { rewrite d1_recs. intros r fs Hi c c' Hc Hc' H. cbn in Hi. repeat (destruct Hi as [[= <- <-]|Hi]; [cbn in *; lia|]). destruct Hi. }
  split; [apply after_reach|]. split; [rewrite d1_recs; reflexivity|]. split; [rewrite d1_recs; cbn; tauto|]. split; [|exact Q].
  exact (proj2 (proj2 (proj2 (C69_operations_defined xh false true d1 (after_reach _ _ _ _)))) [1; 2] Q).
Qed.

(** False in general.  Integers: a search for 7 also finds 7 + 2^32. *)
Definition ops4 : list op := [ OIndex [0]; OCreate 0 100 1; OSet 100 0 (VInt (7 + 2 ^ 32)) ].
Theorem C69_integers_refuted : exists h d ix, reach h false true d /\ In ix (ixs d) /\ cols ix = [0] /\
  search_hash h ix [VInt 7] = Some [100] /\ recs d = [(100, [VInt (7 + 2 ^ 32)])].
Proof.
  exists xh, (after xh false true ops4), (nth_ix (after xh false true ops4) 0). split; [apply after_reach|].
  split; [apply nth_In; vm_compute; constructor|]. split; [vm_compute; reflexivity|]. split; vm_compute; reflexivity.
Qed.
Print Assumptions C69_integers_refuted.

(** Prefixes: the 0 byte after a prefix is also the one between two columns. *)
Definition u1 : list val := [VUri (Some [112]) [7; 98]; VStr [99]].
Definition u2 : list val := [VUri None [112]; VUri (Some [98]) [5; 99]].
Definition ops5 : list op := [ OIndex [0; 1]; OCreate 0 100 2; OSet 100 0 (VUri (Some [112]) [7; 98]); OSet 100 1 (VStr [99]) ].
Theorem C69_prefixes_refuted : exists h d ix, reach h false true d /\ In ix (ixs d) /\ cols ix = [0; 1] /\
  search_hash h ix u2 = Some [100] /\ recs d = [(100, u1)] /\ Forall ordinary u1 /\ Forall ordinary u2.
Proof.
  exists xh, (after xh false true ops5), (nth_ix (after xh false true ops5) 0). split; [apply after_reach|].
  split; [apply nth_In; vm_compute; constructor|]. split; [vm_compute; reflexivity|]. split; [vm_compute; reflexivity|]. split; [vm_compute; reflexivity|].
  split; repeat (apply Forall_cons; [one|]); apply Forall_nil.
Qed.
Print Assumptions C69_prefixes_refuted.

(** Failures: a value no key can be made of in a column of one index keeps the record out of an
    index that does not have this column. *)
Theorem C69_after_failure_refuted : exists h d ix r fs, reach h false false d /\ In ix (ixs d) /\ cols ix = [0] /\
  In (r, fs) (recs d) /\ has [0] [VInt 8] fs /\ search_hash h ix [VInt 8] = Some [].
Proof.
  exists xh, d3, (nth_ix d3 1), 100, [VInt 8; VBlob [1]]. split; [apply after_reach|]. split; [exact (proj2 d3_ix1)|]. split; [exact (proj1 d3_ix1)|].
  split; [rewrite d3_recs; left; reflexivity|]. split; [constructor; [reflexivity|constructor]|vm_compute; reflexivity].
Qed.
Print Assumptions C69_after_failure_refuted.

(** New records: filled field by field as new records are, while there is an index on two columns,
    a record is found under values it no longer has. *)
Theorem C69_fill_refuted : exists h d da dc ix, reach h false true d /\
  set_new_field h false (create_raw d 0 100 2) 100 0 (VInt 5) = Some (da, 0) /\ set_new_field h false da 100 1 (VInt 6) = Some (dc, 0) /\
  In ix (ixs dc) /\ cols ix = [0; 1] /\ recs dc = [(100, [VInt 5; VInt 6])] /\ search_hash h ix [VInt 5; VNull] = Some [100].
Proof.
  set (d := after xh false true [OIndex [0; 1]]). set (da := match set_new_field xh false (create_raw d 0 100 2) 100 0 (VInt 5) with Some (x, _) => x | None => d end).
  set (dc := match set_new_field xh false da 100 1 (VInt 6) with Some (x, _) => x | None => d end).
  exists xh, d, da, dc, (nth_ix dc 0). split; [apply after_reach|]. split; [vm_compute; reflexivity|]. split; [vm_compute; reflexivity|].
  split; [apply nth_In; vm_compute; constructor|]. split; [vm_compute; reflexivity|]. split; vm_compute; reflexivity.
Qed.
Print Assumptions C69_fill_refuted.

(** Short records: making an index reads past the end of a record that has its first column only. *)
Theorem C69_short_records_refuted : exists h d, reach h false true d /\ recs d = [(100, [VInt 1])] /\ create_index h d [0; 1] = None.
Proof. exists xh, (after xh false true [OCreate 0 100 1; OSet 100 0 (VInt 1)]). split; [apply after_reach|]. split; vm_compute; reflexivity. Qed.
Print Assumptions C69_short_records_refuted.

(** As shipped (QUICK_REASONER): a record created after the index is not found. *)
Theorem C69_shipped_refuted : exists h d d' ix r fs, reach h true true d /\ create_record h true d 0 r 1 = Some (d', r) /\
  In ix (ixs d') /\ cols ix = [0] /\ In (r, fs) (recs d') /\ has [0] [VNull] fs /\ search_hash h ix [VNull] = Some [].
Proof.
  set (d := after xh true true [OIndex [0]]). set (d' := create_raw d 0 100 1).
  exists xh, d, d', (nth_ix d' 0), 100, [VNull]. split; [apply after_reach|]. split; [reflexivity|]. split; [apply nth_In; vm_compute; constructor|].
  split; [vm_compute; reflexivity|]. split; [left; reflexivity|]. split; [constructor; [reflexivity|constructor]|vm_compute; reflexivity].
Qed.
Print Assumptions C69_shipped_refuted.
