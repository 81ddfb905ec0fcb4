(** C64: references between records, and the strings they hold. *)
From Coq Require Import List ZArith Bool Lia Permutation.
From Verif Require Import RefModel RefSpec RefProof RefLink RefVals RefInv RefOps RefMore.
Import ListNotations.
Open Scope Z_scope.

(** With the bodies of wg_set_field and wg_set_new_field compiled in (quick = false) *)

(** Every operation is defined: no list is followed into freed memory.  All succeed but deleting a record
    that is referred to, which leaves the database as it was. *)
Theorem C64_defined d o : reach false d -> allowed d o ->
  exists z d', apply false d o = Some (z, d') /\ (z = 0 \/ z = -1 /\ d' = d /\ exists r, o = Delete r).
Proof.
  intros R A. destruct (apply_ok d o (reach_WF _ R) A) as (z&d'&E&_&_&Z). exists z, d'. split; [exact E|].
  destruct o as [n a|b|s ex|r i v c|r i v c|r|v]; auto. destruct Z as [Z|[Z D]]; [auto|]. right. repeat split; eauto.
Qed.

(** No field and no string refers to anything freed. *)
Theorem C64_no_dangling_partial d v : reach false d -> in_use d v -> exists_in d v.
Proof. intros R. apply safe, reach_WF, R. Qed.
(** Missing: a short string, double or big integer stored into two fields (not [usable]) *)
Definition box_ops : list op := [Create 2 8; Box 40; Set_ 8 0 (VBox 40) 100].
Theorem C64_shared_refuted : exists d d1 d2, run false empty box_ops = Some d /\
  apply false d (Set_ 8 1 (VBox 40) 101) = Some (0, d1) /\ apply false d1 (Set_ 8 0 VNull 102) = Some (0, d2) /\
  get_field d2 8 1 = Some (VBox 40) /\ ~ exists_in d2 (VBox 40).
Proof. eexists _, _, _. split; [reflexivity|]. split; [reflexivity|]. split; [reflexivity|]. split; [reflexivity|]. intros []. Qed.

(** Setting a field *)
Theorem C64_set d r i v c : reach false d -> forall o, o = Set_ r i v c \/ o = SetNew r i v c -> allowed d o ->
  exists d', apply false d o = Some (0, d') /\ get_field d' r i = Some v /\
    (forall q j, q <> r \/ j <> i -> get_field d' q j = get_field d q j) /\ (forall q, is_rec d' q <-> is_rec d q).
Proof.
  intros R o K A. assert (F : exists fs old, get r (bodies d) = Some fs /\ nth_error fs i = Some old).
  { destruct K as [->| ->]; cbn [allowed] in A; destruct A as [N _]; rewrite get_field_bodies in N; destruct (get r (bodies d)) as [fs|]; try congruence.
    - destruct (nth_error fs i) eqn:E; [eauto|congruence].
    - eauto. }
  destruct F as (fs&old&G&E). destruct (apply_ok d o (reach_WF _ R) A) as (z&d'&U&_&B&Z).
  assert (Z0 : z = 0) by (destruct K as [->| ->]; exact Z). subst z. exists d'. split; [exact U|].
  apply (set_fields d d' r i v fs G); [eauto|]. destruct K as [->| ->]; cbn [bodies_after] in B; rewrite G in B; exact B.
Qed.

(** Deleting a record: refused exactly when some record refers to it *)
Theorem C64_delete d r : reach false d -> is_rec d r ->
  ((exists p, refers d p (VRec r)) <-> apply false d (Delete r) = Some (-1, d)) /\
  ((forall p, ~ refers d p (VRec r)) <-> exists d', apply false d (Delete r) = Some (0, d')) /\
  (forall d', apply false d (Delete r) = Some (0, d') -> ~ is_rec d' r /\
     (forall q j, q <> r -> get_field d' q j = get_field d q j) /\ (forall q, q <> r -> (is_rec d' q <-> is_rec d q))).
Proof.
  intros R (x&G). pose proof (reach_WF _ R) as W. pose proof (no_parents d r x W G) as NP.
  assert (GB : get r (bodies d) = Some (fields x)) by (rewrite get_bodies, G; reflexivity).
  assert (A0 : (forall p, ~ refers d p (VRec r)) -> exists d', apply false d (Delete r) = Some (0, d') /\ bodies d' = del r (bodies d)).
  { intros N. destruct (delete_ok d r (fields x) W GB N) as (d'&U&_&B). exists d'. auto. }
  assert (A1 : back x <> 0 -> apply false d (Delete r) = Some (-1, d)).
  { intros N. cbn [apply]. unfold delete_record. rewrite G, (proj2 (Z.eqb_neq _ _) N). reflexivity. }
  assert (A2 : back x <> 0 -> exists p, refers d p (VRec r)).
  { intros N. destruct (parents r (lks (refs d))) as [|p l] eqn:E.
    - exfalso. apply N, NP. intros p X. apply refers_refs in X; [|apply w_rk, W]. apply lks_in, parents_in in X. rewrite E in X. exact X.
    - exists p. apply refers_refs; [apply w_rk, W|]. apply lks_in, parents_in. rewrite E. left. reflexivity. }
  split; [|split].
  - split; [intros (p&X); apply A1; intros Z; apply (proj1 NP Z p X)|]. intros U. apply A2. intros Z. destruct (A0 (proj1 NP Z)) as (d'&U'&_). congruence.
  - split; [intros N; destruct (A0 N) as (d'&U'&_); eauto|]. intros (d'&U). apply NP. destruct (Z.eq_dec (back x) 0) as [Z|Z]; [exact Z|]. rewrite (A1 Z) in U. discriminate.
  - intros d' U. destruct (Z.eq_dec (back x) 0) as [Z|Z]; [|rewrite (A1 Z) in U; discriminate]. destruct (A0 (proj1 NP Z)) as (d1&U1&B). assert (d1 = d') by congruence. subst d1.
    apply del_fields; [rewrite bodies_keys; apply w_rk, W|exact B].
Qed.

(** The parents of a record are listed, each once, when no record refers to it from two fields. *)
Definition refers_once (d : db) (r : Z) : Prop := forall p i j, get_field d p i = Some (VRec r) -> get_field d p j = Some (VRec r) -> i = j.
Theorem C64_parents_partial d r : reach false d -> is_rec d r -> refers_once d r ->
  exists n l, parents_listed n d r = Some l /\ NoDup l /\ (forall p, In p l <-> refers d p (VRec r)).
Proof.
  intros R I O. pose proof (reach_WF _ R) as W. destruct (chain d r W I) as (h&l&RD&P&_&Z0&Z1&PP&F).
  assert (ND : NoDup (map snd l)).
  { apply (Permutation_NoDup (Permutation_sym PP)). apply once_nodup; [rewrite bodies_keys; apply w_rk, W|]. intros p fs i j G E1 E2. apply (O p i j); rewrite get_field_bodies, G; assumption. }
  exists (S (length l)), (map snd l). split; [apply (listed d r h l RD P Z0 Z1 F ND)|]. split; [exact ND|]. intros p. rewrite refers_refs by (apply w_rk, W).
  rewrite <- lks_in, <- parents_in. split; apply Permutation_in; [exact PP|apply Permutation_sym, PP].
Qed.
(** Otherwise the listing may not end. *)
Definition twice_ops : list op := [Create 1 8; Create 2 16; Set_ 16 0 (VRec 8) 100; Set_ 16 1 (VRec 8) 101].
Definition twice_db : db := Eval vm_compute in match run false empty twice_ops with Some d => d | None => empty end.
Theorem C64_parents_refuted : exists d, reach false d /\ is_rec d 8 /\ (forall p, refers d p (VRec 8) -> p = 16) /\ forall n, parents_listed n d 8 = None.
Proof.
  exists twice_db. split; [apply (run_reach false twice_ops empty); [constructor|reflexivity]|]. split; [eexists; reflexivity|]. split.
  - intros p (i&H). unfold get_field, twice_db in H. cbn [recs get] in H. destruct (Z.eqb_spec 16 p); [auto|]. destruct (Z.eqb_spec 8 p); [|discriminate].
    cbn in H. destruct i as [|[|i]]; cbn in H; discriminate.
  - unfold parents_listed. intros n. change (first_parent _ 8) with (Some 16). induction n as [|n IH]; cbn [list_parents]; [reflexivity|].
    change (16 =? 0) with false. change (next_parent _ 8 16) with (Some 16). cbv beta iota. rewrite IH. reflexivity.
Qed.

(** A string in use is let go by an operation exactly when nothing uses it any more. *)
Theorem C64_string_freed d o z d' s : reach false d -> allowed d o -> apply false d o = Some (z, d') -> in_use d (VStr s) ->
  (is_str d' s <-> in_use d' (VStr s)).
Proof. intros R. apply string_kept, reach_WF, R. Qed.
(** Freeing an encoded string frees it exactly when nothing uses it. *)
Theorem C64_free d s z d' : reach false d -> is_str d s -> apply false d (Free (VStr s)) = Some (z, d') -> (is_str d' s <-> in_use d (VStr s)).
Proof. intros R. apply free_exact, reach_WF, R. Qed.
(** As many list cells are in use as fields that refer to records. *)
Definition rec_fields (x : rec) : nat := length (filter (fun v => match v with VRec _ => true | _ => false end) (fields x)).
Theorem C64_cells d : reach false d -> length (cells d) = list_sum (map (fun e => rec_fields (snd e)) (recs d)).
Proof.
  intros R. rewrite (cells_total d (reach_WF _ R)). clear R. unfold refs, bodies. induction (recs d) as [|[r x] l IH]; [reflexivity|].
  cbn [map fst snd list_sum fold_right]. change (fold_right plus 0%nat) with list_sum. rewrite <- IH. unfold refsb. cbn [flat_map fst snd]. rewrite lks_app, app_length. f_equal.
  unfold rec_fields. clear IH. induction (fields x) as [|v fs IHf]; [reflexivity|]. cbn [map filter]. unfold lks in *. cbn [flat_map snd fst]. rewrite app_length, IHf. destruct v; reflexivity.
Qed.
(** The place of a new list cell is not checked: out of memory, the cell goes to the start of the segment. *)
Theorem C64_cell_refuted : exists d, reach false d /\ get_field d 16 0 = Some VNull /\ usable d (VRec 8) /\ apply false d (Set_ 16 0 (VRec 8) 0) = None /\ apply false d (SetNew 16 0 (VRec 8) 0) = None.
Proof.
  eexists. split; [apply (run_reach false [Create 1 8; Create 2 16] empty); [constructor|reflexivity]|]. split; [reflexivity|]. split; [split; [eexists; reflexivity|exact Logic.I]|].
  split; reflexivity.
Qed.

(** As compiled (quick = true) *)

(** Deleting a record that is referred to succeeds and leaves the reference. *)
Definition quick_ops : list op := [Create 1 8; Create 2 16; Str 200 VNull; SetNew 16 0 (VRec 8) 100].
Theorem C64_compiled_delete_refuted : exists d d', reach true d /\ refers d 16 (VRec 8) /\ apply true d (Delete 8) = Some (0, d') /\ refers d' 16 (VRec 8) /\ ~ exists_in d' (VRec 8).
Proof.
  eexists _, _. split; [apply (run_reach true quick_ops empty); [constructor|reflexivity]|]. split; [exists 0%nat; reflexivity|]. split; [reflexivity|]. split; [exists 0%nat; reflexivity|].
  intros (x&H). discriminate.
Qed.
(** A record that refers to a record can never be deleted. *)
Theorem C64_compiled_child_refuted d r o d' : reach true d -> refers d r (VRec o) -> apply true d (Delete r) <> Some (0, d').
Proof.
  intros R (i&H) E. destruct (bare_reach d R) as [B _]. cbn [apply] in E. unfold get_field in H. unfold delete_record in E. destruct (get r (recs d)) as [x|] eqn:G; [|discriminate].
  rewrite (B r x G) in E. cbn [Z.eqb negb] in E. destruct (delete_fields d r (fields x)) as [[z d1]|] eqn:D; [|discriminate]. destruct (bare_delete _ _ _ _ _ B D) as [_ N].
  destruct (Z.eqb_spec z 0) as [->|NZ].
  - apply (N eq_refl o). eapply nth_error_In; eauto.
  - injection E as E _. contradiction.
Qed.
(** ... and the attempt frees the fields before the reference, which still hold what was freed. *)
Theorem C64_compiled_half_refuted : exists d d', reach true d /\ apply true d (Delete 16) = Some (-3, d') /\ get_field d' 16 0 = Some (VStr 200) /\ ~ exists_in d' (VStr 200).
Proof.
  eexists _, _. split; [apply (run_reach true [Create 1 8; Create 2 16; Str 200 VNull; SetNew 16 0 (VStr 200) 100; SetNew 16 1 (VRec 8) 101] empty); [constructor|reflexivity]|].
  split; [reflexivity|]. split; [reflexivity|]. intros (x&H). discriminate.
Qed.
(** Deleting one of two records that hold the same string frees it under the other. *)
Theorem C64_compiled_string_refuted : exists d d', reach true d /\ refers d 16 (VStr 200) /\ apply true d (Delete 8) = Some (0, d') /\ refers d' 16 (VStr 200) /\ ~ exists_in d' (VStr 200).
Proof.
  eexists _, _. split; [apply (run_reach true [Create 1 8; Create 2 16; Str 200 VNull; SetNew 8 0 (VStr 200) 100; SetNew 16 0 (VStr 200) 101] empty); [constructor|reflexivity]|].
  split; [exists 0%nat; reflexivity|]. split; [reflexivity|]. split; [exists 0%nat; reflexivity|]. intros (x&H). discriminate.
Qed.

(** Non-trivial cases: two records referring to a third, a string with a language shared by two fields *)
Definition some_ops : list op :=
  [Create 1 8; Create 2 16; Create 2 24; Str 200 VNull; Str 208 (VStr 200); Box 300; Set_ 16 0 (VRec 8) 100; SetNew 24 0 (VRec 8) 101;
   Set_ 16 1 (VStr 208) 102; Set_ 24 1 (VStr 208) 102; Set_ 8 0 (VBox 300) 102; Set_ 24 0 (VRec 24) 102].
Definition some_db : db := Eval vm_compute in match run false empty some_ops with Some d => d | None => empty end.
Example C64_case : exists d, reach false d /\ parents_listed 3 d 8 = Some [16] /\ parents_listed 3 d 24 = Some [24] /\ refers_once d 8 /\
  in_use d (VStr 208) /\ in_use d (VStr 200) /\ in_use d (VBox 300) /\ apply false d (Delete 8) = Some (-1, d) /\ apply false d (Delete 24) = Some (-1, d) /\
  (exists d', apply false d (Delete 16) = Some (0, d') /\ is_str d' 208 /\ in_use d' (VStr 208)) /\
  (exists d1 d2, apply false d (Set_ 16 1 VNull 103) = Some (0, d1) /\ apply false d1 (Set_ 24 1 VNull 103) = Some (0, d2) /\ is_str d1 208 /\ ~ is_str d2 208 /\ ~ is_str d2 200).
Proof.
  exists some_db. split; [apply (run_reach false some_ops empty); [constructor|reflexivity]|]. split; [reflexivity|]. split; [reflexivity|]. split.
  - intros p i j. unfold get_field, some_db. cbn [recs get]. destruct (24 =? p); [cbn; destruct i as [|[|[|i]]]; cbn; try discriminate|]. destruct (16 =? p); [cbn; destruct i as [|[|[|i]]], j as [|[|[|j]]]; cbn; intros; congruence|].
    destruct (8 =? p); [|discriminate]. cbn. destruct i as [|[|i]]; cbn; discriminate.
  - split; [left; exists 16, 1%nat; reflexivity|]. split; [right; exists 208; eexists; split; reflexivity|]. split; [left; exists 8, 0%nat; reflexivity|].
    split; [reflexivity|]. split; [reflexivity|]. split.
    + eexists. split; [reflexivity|]. split; [eexists; reflexivity|left; exists 24, 1%nat; reflexivity].
    + eexists _, _. split; [reflexivity|]. split; [reflexivity|]. split; [eexists; reflexivity|]. split; intros (x&H); discriminate.
Qed.

Print Assumptions C64_defined.
Print Assumptions C64_no_dangling_partial.
Print Assumptions C64_shared_refuted.
Print Assumptions C64_set.
Print Assumptions C64_delete.
Print Assumptions C64_parents_partial.
Print Assumptions C64_parents_refuted.
Print Assumptions C64_string_freed.
Print Assumptions C64_free.
Print Assumptions C64_cells.
Print Assumptions C64_cell_refuted.
Print Assumptions C64_compiled_delete_refuted.
Print Assumptions C64_compiled_child_refuted.
Print Assumptions C64_compiled_half_refuted.
Print Assumptions C64_compiled_string_refuted.
