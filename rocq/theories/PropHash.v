(** C27: stores of unit literals.  C45: the index of literals for resolution. *)
From Coq Require Import List ZArith Bool Lia.
From Verif Require Import Word64 Terms MatchModel VecModel HashModel HashSpec HashProof.
Import ListNotations.
Open Scope Z_scope.

(** C27.  Whatever the hash functions of doubles and long strings are. *)
Theorem C27_found_was_stored : forall dhash ltext den len sb h st x cl, units dhash ltext den len h st ->
  find_unit dhash ltext den sb st x = FFound cl -> exists w, In (w, cl) h /\ den w = x.
Proof. exact unit_found. Qed.
Print Assumptions C27_found_was_stored.
Theorem C27_stored_is_found : forall dhash ltext den len h st x w cl, units dhash ltext den len h st ->
  In (w, cl) h -> den w = x -> exists cl', find_unit dhash ltext den (fun _ => true) st x = FFound cl'.
Proof. exact unit_stored. Qed.
Print Assumptions C27_stored_is_found.
Theorem C27_not_found_was_not_stored : forall dhash ltext den len sb h st x, units dhash ltext den len h st ->
  find_unit dhash ltext den sb st x = FNone -> forall w cl, In (w, cl) h -> den w <> x.
Proof. exact unit_none. Qed.
Print Assumptions C27_not_found_was_not_stored.
Theorem C27_lookup_stays_inside : forall dhash ltext den len sb h st x, units dhash ltext den len h st ->
  find_unit dhash ltext den sb st x <> FUB.
Proof. exact unit_no_ub. Qed.
Print Assumptions C27_lookup_stays_inside.
Theorem C27_bucket_number_is_inside : forall len hash, 2 <= len -> 1 <= slot (new_harr len) hash < len.
Proof. exact slot_inside. Qed.
Print Assumptions C27_bucket_number_is_inside.
Theorem C27_storing_succeeds : forall dhash ltext den len h st junk w cl, units dhash ltext den len h st ->
  Z.of_nat (length h) < 2 ^ 28 -> exists st', store_unit dhash ltext den true true true junk st w cl = Some st'.
Proof. exact unit_store_ok. Qed.
Print Assumptions C27_storing_succeeds.

(** Two literals in the same bucket: p(1) under word 8, q under word 16, in an array with a
    single bucket. *)
Definition hden (w : Z) : term :=
  if w =? 8 then TRec [TCst (CLong 100); TCst (CImm 11)]
  else if w =? 16 then TRec [TCst (CLong 200)]
  else TRec [TCst (CLong 100); TVar 0].
Definition htext (o : Z) : list Z := if o =? 100 then [112] else if o =? 200 then [113] else [].
Definition hj : nat -> Z := fun n => Z.of_nat n + 1000.
Definition hget (o : option harr) : harr := match o with Some h => h | None => new_harr 2 end.
Definition hs1 := hget (store_unit (fun _ => 0) htext hden true true true hj (new_harr 2) 8 800).
Definition hs2 := hget (store_unit (fun _ => 0) htext hden true true true hj hs1 16 1600).
Example C27_nonvacuous : units (fun _ => 0) htext hden 2 [(8, 800); (16, 1600)] hs2 /\
  find_unit (fun _ => 0) htext hden (fun _ => true) hs2 (hden 16) = FFound 1600 /\
  find_unit (fun _ => 0) htext hden (fun _ => true) hs2 (hden 24) = FNone.
Proof.
  pose proof (u_new (fun _ => 0) htext hden 2 ltac:(lia)) as R0.
  pose proof (u_store (fun _ => 0) htext hden 2 [] _ true true true hj 8 800 hs1 R0 ltac:(cbn; lia) eq_refl) as R1.
  split; [exact (u_store (fun _ => 0) htext hden 2 [(8, 800)] _ true true true hj 16 1600 hs2 R1 ltac:(cbn; lia) eq_refl)|].
  split; reflexivity.
Qed.

(** C45.  Every atom stored that has a common instance with the atom looked up is among the
    candidates. *)
Theorem C45_unifiable_atoms_are_candidates : forall dhash ltext den len n used h l x w cl r,
  index dhash ltext den len used h l -> (3 * length h <= n)%nat ->
  In (w, cl) h -> has_symbol x -> has_symbol (den w) -> common_instance x (den w) ->
  candidates dhash ltext n l x = Some r -> In (w, cl, 0) r.
Proof. exact candidates_complete. Qed.
Print Assumptions C45_unifiable_atoms_are_candidates.
(** A candidate is always a stored atom. *)
Theorem C45_candidates_were_stored : forall dhash ltext den len n used h l x r w cl p,
  index dhash ltext den len used h l -> (3 * length h <= n)%nat ->
  candidates dhash ltext n l x = Some r -> In (w, cl, p) r -> In (w, cl) h.
Proof. exact candidates_stored. Qed.
Print Assumptions C45_candidates_were_stored.
(** The look-up goes through whenever the three keys are slot numbers. *)
Theorem C45_lookup_is_defined : forall dhash ltext den len n used h l x,
  index dhash ltext den len used h l -> (3 * length h <= n)%nat ->
  (forall k, In k (lookup_keys dhash ltext x) -> is_slot len k) -> exists r, candidates dhash ltext n l x = Some r.
Proof. exact candidates_defined. Qed.
Print Assumptions C45_lookup_is_defined.
(** The chains: what is added under a slot is what is listed under it, newest first, and the
    length kept is right. *)
Theorem C45_lists_keep_everything : forall len used h l k n, lists len used h l -> is_slot len k ->
  (length (under k h) <= n)%nat ->
  hashlist_len l k = Z.of_nat (length (under k h)) /\ walk n l (hashlist_start l k) = Some (under k h) /\
  (under k h <> [] -> hashlist_start l k <> 0).
Proof. exact list_walk. Qed.
Print Assumptions C45_lists_keep_everything.
(** A key is a slot number except for one value, which comes from the hash -2^31 ([abs] of it is
    itself). *)
Theorem C45_keys_are_slots : forall dhash ltext t k,
  In k (store_keys dhash ltext t) \/ In k (lookup_keys dhash ltext t) -> is_slot 1000000 k \/ k = -487941.
Proof. exact keys_are_slots. Qed.
Print Assumptions C45_keys_are_slots.
(** Storing an atom succeeds when its keys are slot numbers and memory is found. *)
Theorem C45_storing_succeeds : forall dhash ltext den len used h l w cl addrs, index dhash ltext den len used h l ->
  (forall k, In k (store_keys dhash ltext (den w)) -> is_slot len k) ->
  (length (store_keys dhash ltext (den w)) <= length addrs)%nat -> (forall a, In a (flat addrs) -> a <> 0) ->
  exists l', store_atom dhash ltext den l w cl addrs = LOk l'.
Proof. exact store_defined. Qed.
Print Assumptions C45_storing_succeeds.
(** Keys that are not slot numbers exist: huah(890820) is an atom that can be neither stored nor
    looked up, the prover exits. *)
Definition huah : list Z := [104; 117; 97; 104].
Theorem C45_every_atom_has_keys_refuted : forall dhash ltext den o w, ltext o = huah ->
  den w = TRec [TCst (CLong o); TCst (CImm (890820 * 8 + 3))] ->
  (exists k, In k (lookup_keys dhash ltext (den w)) /\ ~ is_slot 1000000 k) /\
  forall used h l n cl addrs, index dhash ltext den 1000000 used h l -> (2 <= length addrs)%nat ->
    NoDup (flat addrs) -> (forall a, In a (flat addrs) -> a <> 0) ->
    store_atom dhash ltext den l w cl addrs = LBadHash /\ candidates dhash ltext n l (den w) = None.
Proof. exact huah_exits. Qed.
Print Assumptions C45_every_atom_has_keys_refuted.

Definition lget (r : lres) : hlist := match r with LOk l => l | _ => new_hlist 2 (fun _ => {| n_term := 0; n_cl := 0; n_path := 0; n_next := 0 |}) end.
Definition hl0 := new_hlist 1000000 (fun _ => {| n_term := 5; n_cl := 6; n_path := 7; n_next := 8 |}).
Definition hl1 := lget (store_atom (fun _ => 0) htext hden hl0 8 800 [(32, 64); (96, 128)]).
Definition hl2 := lget (store_atom (fun _ => 0) htext hden hl1 16 1600 [(160, 192)]).
(** p(1) and q stored, p(X) looked up. *)
Example C45_nonvacuous : index (fun _ => 0) htext hden 1000000 [160; 192; 32; 64; 96; 128] [(16, 1600); (8, 800)] hl2 /\
  has_symbol (hden 24) /\ has_symbol (hden 8) /\ common_instance (hden 24) (hden 8) /\
  (forall k, In k (lookup_keys (fun _ => 0) htext (hden 24)) -> is_slot 1000000 k) /\
  candidates (fun _ => 0) htext 6 hl2 (hden 24) = Some [(8, 800, 0)].
Proof.
  pose proof (x_new (fun _ => 0) htext hden 1000000 (fun _ => {| n_term := 5; n_cl := 6; n_path := 7; n_next := 8 |})) as R0.
  assert (N1 : NoDup (flat [(32, 64); (96, 128)])) by (repeat constructor; cbn; lia).
  assert (N2 : NoDup (flat [(160, 192)])) by (repeat constructor; cbn; lia).
  assert (F1 : forall a, In a (flat [(32, 64); (96, 128)]) -> a <> 0 /\ ~ In a []) by (cbn; lia).
  assert (F2 : forall a, In a (flat [(160, 192)]) -> a <> 0 /\ ~ In a [32; 64; 96; 128]) by (cbn; lia).
  pose proof (x_store _ _ _ _ [] [] _ 8 800 [(32, 64); (96, 128)] hl1 R0 N1 F1 eq_refl) as R1.
  split; [exact (x_store _ _ _ _ [32; 64; 96; 128] [(8, 800)] _ 16 1600 [(160, 192)] hl2 R1 N2 F2 eq_refl)|].
  split; [do 2 eexists; reflexivity|]. split; [do 2 eexists; reflexivity|].
  split; [exists (fun _ => TCst (CImm 11)), (fun i => TVar i); reflexivity|].
  split; [|reflexivity].
  assert (K : forallb (fun k => (1 <=? k) && (k <? 1000000)) (lookup_keys (fun _ => 0) htext (hden 24)) = true) by reflexivity.
  rewrite forallb_forall in K. intros k Hk. specialize (K k Hk). apply andb_prop in K as [K1 K2].
  split; [apply Z.leb_le, K1|apply Z.ltb_lt, K2].
Qed.
