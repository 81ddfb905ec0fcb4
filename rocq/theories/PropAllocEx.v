(** A concrete history: a segment of a million bytes, two areas, some objects. *)
From Coq Require Import List ZArith Bool Lia.
From Verif Require Import Word64 AllocModel AllocSpec AllocProof EncModel EncSpec EncProof.
Import ListNotations.
Open Scope Z_scope.

Definition ad0 : db := {| mem := fun _ => 77; dfree := 1024; dsize := 1000000;
                          areas := fun _ => {| olen := 0; flist := 0; subs := [] |} |}.
Lemma ad0_blank : blank ad0.
Proof. unfold blank. cbn. unfold int_max. repeat split; auto; lia. Qed.

Definition or_else (o : option db) (d : db) := match o with Some d' => d' | None => d end.
Definition is_some (o : option db) := match o with Some _ => true | None => false end.
Lemma or_else_ok o d : is_some o = true -> o = Some (or_else o d).
Proof. destruct o; [auto|discriminate]. Qed.
Definition of_ares (r : ares) (d : db) := match r with AOk _ d' => d' | _ => d end.
Definition off_ares (r : ares) := match r with AOk o _ => o | _ => 0 end.
Lemma ares_ok r o d : off_ares r = o -> o <> 0 -> r = AOk o (of_ares r d).
Proof. destruct r; cbn; intros <- H; auto; contradiction. Qed.

Definition ad1 : db := or_else (create_area ad0 word_area 8) ad0.
Lemma ad1_ok : create_area ad0 word_area 8 = Some ad1.
Proof. apply or_else_ok. vm_compute. reflexivity. Qed.
Definition ad2 : db := or_else (create_area ad1 doubleword_area 16) ad1.
Lemma ad2_ok : create_area ad1 doubleword_area 16 = Some ad2.
Proof. apply or_else_ok. vm_compute. reflexivity. Qed.

Definition ad3 : db := of_ares (alloc_fixlen ad2 word_area) ad2.
Lemma ad3_ok : alloc_fixlen ad2 word_area = AOk 1024 ad3.
Proof. apply ares_ok; [vm_compute; reflexivity|lia]. Qed.
Definition ad4 : db := of_ares (alloc_fixlen ad3 word_area) ad3.
Lemma ad4_ok : alloc_fixlen ad3 word_area = AOk 1032 ad4.
Proof. apply ares_ok; [vm_compute; reflexivity|lia]. Qed.
Definition ab1 := cell ad3 word_area 1024.
Definition ab2 := cell ad4 word_area 1032.

Lemma reach_ad2 : areach (ad2, []).
Proof.
  exists ad0. split; [apply ad0_blank|].
  refine (a_step _ (ad1, []) _ (a_step _ (ad0, []) _ (a_refl _) _) _).
  - apply (as_create ad0 [] word_area 8 ad1); [reflexivity|lia|reflexivity|apply ad1_ok].
  - apply (as_create ad1 [] doubleword_area 16 ad2); [vm_compute; reflexivity|lia|reflexivity|apply ad2_ok].
Qed.
Lemma reach_ad4 : areach (ad4, [ab2; ab1]).
Proof.
  eapply areach_trans; [apply reach_ad2|].
  refine (a_step _ (ad3, [ab1]) _ (a_step _ (ad2, []) _ (a_refl _) _) _).
  - exact (as_alloc ad2 [] word_area 1024 ad3 ad3_ok).
  - exact (as_alloc ad3 [ab1] word_area 1032 ad4 ad4_ok).
Qed.
Lemma ab1_cell : ab1 = cell ad4 word_area 1024.
Proof. vm_compute. reflexivity. Qed.
(** The first object is freed again. *)
Definition ad5 := free_fixlen ad4 word_area 1024.
Lemma steps_ad5 : asteps (ad4, [ab2; ab1]) (ad5, [ab2]).
Proof.
  refine (a_step _ _ _ (a_refl _) _). rewrite ab1_cell.
  exact (as_free ad4 [ab2] [] word_area 1024).
Qed.
Lemma ad5_not : ~ In (cell ad5 word_area 1024) [ab2].
Proof. vm_compute. intros [H|[]]. discriminate. Qed.
(** An area grows: the cell after the last one of the first subarea. *)
Definition exhausted : db := nat_rect (fun _ => db) ad2 (fun _ d => of_ares (alloc_fixlen d word_area) d) 1024.
Lemma grows : exists d, alloc_fixlen exhausted word_area = AOk 17408 d.
Proof. exists (of_ares (alloc_fixlen exhausted word_area) exhausted). apply ares_ok; [vm_compute; reflexivity|lia]. Qed.
Lemma exhausted_reach n : exists L, areach (nat_rect (fun _ => db) ad2 (fun _ d => of_ares (alloc_fixlen d word_area) d) n, L).
Proof.
  induction n as [|n (L&IH)]; [exists []; apply reach_ad2|]. cbn [nat_rect].
  set (d := nat_rect _ _ _ n) in *. destruct (alloc_fixlen d word_area) as [o d'|d'|] eqn:E; cbn [of_ares]; eauto.
  exists (cell d' word_area o :: L). eapply areach_trans; [apply IH|].
  refine (a_step _ _ _ (a_refl _) _). exact (as_alloc d L word_area o d' E).
Qed.

(** A boxed integer, stored and read back after other objects came and went. *)
Definition big : Z := 2 ^ 62 + 5.
Definition ad6 : db := snd (encode_int ad4 big).
Lemma ad6_ok : encode_int ad4 big = (1041, ad6).
Proof.
  unfold ad6. assert (E : fst (encode_int ad4 big) = 1041) by (vm_compute; reflexivity).
  destruct (encode_int ad4 big). cbn in *. congruence.
Qed.
