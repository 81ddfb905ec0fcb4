(** C71: the growing table of integers gives back what was added. *)
From Coq Require Import ZArith Lia List Bool Permutation.
From Verif Require Import GhModel GhProof.
Import ListNotations.
Open Scope Z_scope.

(** For every hash function and every sequence of additions that succeeds: a key that was added gives a
    value that was added with it, another key gives none; a key that was added once gives its value.
    Missing: for a key that was added more than once, which value (refuted below). *)
Theorem C71_lookup_partial : forall h hist t, adds h hist init = Ok t -> forall k,
  (forall v, getkey h t k = Some v -> In (k, v) hist) /\
  (getkey h t k = None <-> ~ In k (map fst hist)) /\
  (NoDup (map fst hist) -> forall v, getkey h t k = Some v <-> In (k, v) hist).
Proof.
  intros h hist t E k. destruct (adds_ok h hist init [] (init_good h)) as [(t' & E' & G)|[E' _]]; [|congruence].
  rewrite E in E'. injection E' as <-. cbn [app] in G. pose proof (getkey_ok h t hist k G) as H.
  assert (F : forall v, getkey h t k = Some v -> In (k, v) hist) by (intros v X; rewrite X in H; exact H).
  split; [exact F|]. split.
  - split.
    + intros X I. rewrite X in H. apply in_map_iff in I as ([k' v] & K & I). cbn in K. subst k'. exact (H v I).
    + intros N. destruct (getkey h t k) as [v|]; [|reflexivity]. destruct N. apply in_map_iff. exists (k, v). split; [reflexivity|exact H].
  - intros N v. split; [apply F|]. intros I. destruct (getkey h t k) as [w|]; [|destruct (H v I)]. f_equal.
    clear - N I H. induction hist as [|[a b] l IH]; [destruct I|]. cbn in N. inversion N as [|? ? N1 N2]; subst.
    destruct I as [I|I], H as [H|H]; [congruence| | |exact (IH H N2 I)].
    + injection I as -> ->. destruct N1. apply in_map_iff. exists (k, w). split; [reflexivity|exact H].
    + injection H as -> ->. destruct N1. apply in_map_iff. exists (k, v). split; [reflexivity|exact I].
Qed.
(** Additions succeed just as long as no eight pairs agree in the last 22 bits of the hash values of
    their keys; otherwise the failure is reported.  No addition reads or writes outside the directory or
    a bucket, and each ends. *)
Theorem C71_additions : forall h hist,
  let crowded := exists r, (8 <= length (filter (fun p => Z.eqb (h (fst p) mod 2 ^ 22) r) hist))%nat in
  ((exists t, adds h hist init = Ok t) <-> ~ crowded) /\ (adds h hist init = Fail <-> crowded).
Proof.
  intros h hist crowded. destruct (adds_ok h hist init [] (init_good h)) as [(t & E & G)|[E C]]; cbn [app] in *.
  - pose proof (good_not_crowd h t hist G) as N. split; split.
    + intros _. exact N.
    + intros _. exists t. exact E.
    + intros X. rewrite X in E. discriminate.
    + intros X. destruct (N X).
  - split; split.
    + intros (t & X). rewrite X in E. discriminate.
    + intros N. destruct (N C).
    + intros _. exact C.
    + intros _. exact E.
Qed.
(** A key added again keeps its first value, with every hash function: the translation of an offset that
    was used again after a deletion is the old one *)
Theorem C71_repeated_refuted : forall h k v w,
  match adds h [(k, v); (k, w)] init with Ok t => getkey h t k = Some v /\ translate h t k = v | _ => False end.
Proof.
  intros h k v w. cbn [adds].
  set (t1 := mkT 1 (updd (fun _ => None) (h k mod 2 ^ 1) 0) (updh (fun _ => mkB 0 []) 0 (mkB 1 [(k, v)])) 1).
  change (addkey h init k v) with (Ok t1). cbn [bind].
  set (t2 := mkT 1 (dir t1) (updh (heap t1) 0 (mkB 1 [(k, v); (k, w)])) 1).
  assert (D : dir t1 (h k mod 2 ^ tlevel t1) = Some 0%nat) by (cbn [dir tlevel t1]; unfold updd; rewrite Z.eqb_refl; reflexivity).
  assert (E2 : addkey h t1 k w = Ok t2) by (unfold addkey; rewrite D; reflexivity).
  rewrite E2. cbn [bind].
  assert (X : forall t, dir t (h k mod 2 ^ tlevel t) = Some 0%nat -> items (heap t 0) = [(k, v); (k, w)] -> getkey h t k = Some v /\ translate h t k = v).
  { intros t A B. assert (G : getkey h t k = Some v) by (unfold getkey; rewrite A, B; cbn [find fst]; rewrite Z.eqb_refl; reflexivity).
    split; [exact G|]. unfold translate. rewrite G. reflexivity. }
  apply X; [exact D|reflexivity].
Qed.
(** ... until the bucket is split: other keys change the value of the key *)
Theorem C71_order_refuted :
  let h z := z in
  let run l := match adds h l init with Ok t => Some (getkey h t 2) | _ => None end in
  let l := [(2, 10); (2, 11); (0, 0); (4, 0); (8, 0); (12, 0); (16, 0)] in
  run l = Some (Some 10) /\ run (l ++ [(20, 0)]) = Some (Some 11).
Proof. vm_compute. split; reflexivity. Qed.
(** Eight additions of one key fail, with every hash function *)
Theorem C71_eight_refuted : forall h k v, adds h (repeat (k, v) 8) init = Fail.
Proof.
  intros h k v. apply C71_additions. exists (h k mod 2 ^ 22). cbn [repeat filter fst]. rewrite Z.eqb_refl. cbn [length]. lia.
Qed.

(** The hash function of the code, a table that is split several times *)
Definition sample : list (Z * Z) := map (fun i => (Z.of_nat i * 24, Z.of_nat i)) (seq 1 40).
Example sample_once : NoDup (map fst sample).
Proof. unfold sample. rewrite map_map. cbn [fst]. apply FinFun.Injective_map_NoDup; [intros a b H; lia|apply seq_NoDup]. Qed.
Example sample_ok : match adds rehash_gint sample init with
  | Ok t => tlevel t = 4 /\ getkey rehash_gint t (17 * 24) = Some 17 /\ getkey rehash_gint t 25 = None | _ => False end.
Proof. vm_compute. repeat split; reflexivity. Qed.

Print Assumptions C71_lookup_partial.
Print Assumptions C71_additions.
Print Assumptions C71_repeated_refuted.
Print Assumptions C71_order_refuted.
Print Assumptions C71_eight_refuted.
