From Coq Require Import List ZArith Bool Lia.
From Verif Require Import Word64 VecModel VecSpec.
Import ListNotations.
Open Scope Z_scope.

Lemma upd_ok : forall v i e, (i < length v)%nat -> exists v', upd v i e = Some v' /\ length v' = length v /\
  nth_error v' i = Some e /\ forall j, j <> i -> nth_error v' j = nth_error v j.
Proof.
  induction v as [|x v IH]; intros i e H; cbn in H; [lia|]. destruct i as [|i]; cbn [upd].
  - exists (e :: v). repeat split; auto. intros [|j] Hj; [congruence|reflexivity].
  - destruct (IH i e ltac:(lia)) as (v'&E&L&N&O). rewrite E. exists (x :: v'). cbn. repeat split; auto.
    intros [|j] Hj; auto. cbn. apply O. lia.
Qed.
Lemma upd_none : forall v i e, upd v i e = None -> (length v <= i)%nat.
Proof.
  intros v i e H. destruct (Nat.le_gt_cases (length v) i); auto. destruct (upd_ok v i e) as (v'&E&_); [lia|]. congruence.
Qed.
Lemma wr_ok v i e : 0 <= i < Z.of_nat (length v) -> exists v', wr v i e = Some v' /\ length v' = length v /\
  rd v' i = Some e /\ forall j, j <> i -> rd v' j = rd v j.
Proof.
  intros H. unfold wr, rd. destruct (Z.ltb_spec i 0); [lia|].
  destruct (upd_ok v (Z.to_nat i) e) as (v'&E&L&N&O); [lia|]. exists v'. repeat split; auto.
  intros j Hj. destruct (Z.ltb_spec j 0); auto. apply O. lia.
Qed.
Lemma wr_some v i e v' : wr v i e = Some v' -> 0 <= i < Z.of_nat (length v) /\ length v' = length v /\
  rd v' i = Some e /\ forall j, j <> i -> rd v' j = rd v j.
Proof.
  intros H. assert (B : 0 <= i < Z.of_nat (length v)).
  { unfold wr in H. destruct (Z.ltb_spec i 0); [discriminate|]. split; auto.
    destruct (Nat.le_gt_cases (length v) (Z.to_nat i)); [|lia]. exfalso.
    assert (X : forall u k x, upd u k x <> None -> (k < length u)%nat).
    { induction u; destruct k; cbn; intros x Hx; try congruence; try lia.
      destruct (upd u k x) eqn:E; [|congruence]. specialize (IHu k x ltac:(congruence)). lia. }
    specialize (X v (Z.to_nat i) e ltac:(congruence)). lia. }
  destruct (wr_ok v i e B) as (v2&E&R). rewrite H in E. inversion E; subst. tauto.
Qed.
Lemma rd_some v i : 0 <= i < Z.of_nat (length v) -> exists e, rd v i = Some e.
Proof.
  intros H. unfold rd. destruct (Z.ltb_spec i 0); [lia|]. destruct (nth_error v (Z.to_nat i)) eqn:E; eauto.
  apply nth_error_None in E. lia.
Qed.

Lemma grow_ok i : i <= index_max -> forall n nlen, 1 <= nlen -> i < 2 ^ (Z.of_nat n) * nlen -> nlen < 2 ^ 31 ->
  exists m, grow (S n) nlen i = Some m /\ i <= m /\ nlen <= m < 2 ^ 31.
Proof.
  unfold index_max. intros Hi. induction n as [|n IH]; intros nlen H1 H2 H3.
  - cbn [grow]. change (2 ^ Z.of_nat 0) with 1 in H2. destruct (Z.ltb_spec nlen i); [lia|]. exists nlen. split; auto. lia.
  - remember (S n) as k. cbn [grow]. destruct (Z.ltb_spec nlen i) as [L|L].
    + destruct (Z.leb_spec (2 ^ 31) (nlen * 2)); [lia|]. subst k.
      destruct (IH (nlen * 2)) as (m&E&A&B); try lia.
      * rewrite Nat2Z.inj_succ, Z.pow_succ_r in H2 by lia. lia.
      * exists m. split; auto. lia.
    + exists nlen. split; auto. lia.
Qed.
Lemma realloc_ok ok junk v i vlen : rd v 0 = Some vlen -> vlen < Z.of_nat (length v) -> vlen < i <= index_max ->
  0 <= vlen <= 2 ^ 30 -> Z.of_nat (length v) <= vlen + 2 ->
  match vec_realloc ok junk v i with
  | VOk v' => exists nlen, rd v' 0 = Some nlen /\ i <= nlen < 2 ^ 31 /\ vlen < nlen /\ Z.of_nat (length v') = nlen + 1 /\
                forall j, 1 <= j < Z.of_nat (length v) -> j <= nlen -> rd v' j = rd v j
  | VFail => ok = false
  | VUB => False
  end.
Proof.
  intros R Hl Hi Hv Hlen. unfold vec_realloc. rewrite R. destruct (Z.leb_spec i vlen); [lia|].
  set (n0 := if vlen <=? 0 then 2 else vlen * 2).
  assert (N0 : 2 <= n0 <= 2 ^ 31 /\ vlen < n0) by (unfold n0; destruct (Z.leb_spec vlen 0); lia).
  assert (G : exists m, grow 40 n0 i = Some m /\ i <= m /\ n0 <= m /\ m < 2 ^ 31).
  { destruct (Z.eq_dec n0 (2 ^ 31)) as [E|E].
    - exfalso. unfold n0 in E. destruct (Z.leb_spec vlen 0); unfold index_max in *; lia.
    - destruct (grow_ok i ltac:(lia) 39 n0) as (m&E1&A&B); try lia; [unfold index_max in *; change (2 ^ Z.of_nat 39) with (2 ^ 39); lia|].
      exists m. split; [exact E1|lia]. }
  destruct G as (m&E&A&B&C). rewrite E. destruct ok; cbn [negb]; auto.
  unfold wr_res. set (w := firstn _ _).
  assert (LW : length w = Z.to_nat (m + 1)).
  { unfold w. rewrite firstn_length, app_length, map_length, seq_length. lia. }
  destruct (wr_ok w 0 m) as (v'&E'&L'&R'&O'); [lia|]. rewrite E'. exists m. repeat split; auto; try lia.
  intros j Hj Hm. rewrite O' by lia. unfold rd. destruct (Z.ltb_spec j 0); auto. unfold w.
  assert (X : forall (l : vec) k q, (q < k)%nat -> nth_error (firstn k l) q = nth_error l q).
  { induction l; destruct k, q; cbn; intros; try lia; auto. apply IHl. lia. }
  rewrite X by lia. apply nth_error_app1. lia.
Qed.

(** Plain vectors. *)
Record vinv (v : vec) : Prop := {
  vi_len : exists vlen, rd v 0 = Some vlen /\ 0 <= vlen <= 2 ^ 31 /\ vlen + 1 <= Z.of_nat (length v) <= vlen + 2 }.

Lemma store_ok ok junk v i e vlen : rd v 0 = Some vlen -> 0 <= vlen < 2 ^ 31 -> vlen + 1 <= Z.of_nat (length v) <= vlen + 2 ->
  1 <= i <= index_max ->
  match vec_store ok junk v i e with
  | VOk v' => exists nlen, rd v' 0 = Some nlen /\ vlen <= nlen < 2 ^ 31 /\ i <= nlen /\ nlen + 1 <= Z.of_nat (length v') <= nlen + 2 /\
                rd v' i = Some e /\ forall j, 1 <= j < Z.of_nat (length v) -> j <= Z.max 1 nlen -> j <> i -> rd v' j = rd v j
  | VFail => ok = false
  | VUB => False
  end.
Proof.
  intros R Hv Hl Hi. unfold vec_store. rewrite R. destruct (Z.leb_spec i vlen) as [L|L].
  - unfold wr_res. destruct (wr_ok v i e) as (v'&E&L'&R'&O'); [lia|]. rewrite E. exists vlen.
    rewrite O' by lia. rewrite L'. repeat split; auto; try lia.
  - assert (V30 : vlen <= 2 ^ 30) by (unfold index_max in *; lia).
    pose proof (realloc_ok ok junk v i vlen R ltac:(lia) ltac:(lia) ltac:(lia) ltac:(lia)) as G.
    destruct (vec_realloc ok junk v i) as [nv| |]; auto.
    destruct G as (nlen&R1&A&B&C&D). unfold wr_res.
    destruct (wr_ok nv i e) as (v'&E&L'&R'&O'); [lia|]. rewrite E. exists nlen. rewrite O' by lia. rewrite L'.
    repeat split; auto; try lia. intros j Hj Hm Hne. rewrite O' by auto. apply D; lia.
Qed.

Lemma rd_new_zero len j : 0 <= len -> 1 <= j <= len -> rd (vec_new len) j = Some 0.
Proof.
  intros Hl Hj. unfold rd, vec_new. destruct (Z.ltb_spec j 0); [lia|].
  replace (Z.to_nat j) with (S (Z.to_nat (j - 1))) by lia. cbn [nth_error].
  assert (X : forall n k, (k < n)%nat -> nth_error (repeat 0 n) k = Some 0).
  { induction n; destruct k; cbn; intros; try lia; auto. apply IHn. lia. }
  apply X. lia.
Qed.

Lemma vec_run_inv len h v : vec_run len h v ->
  exists vlen, rd v 0 = Some vlen /\ 0 <= vlen < 2 ^ 31 /\ len <= vlen /\ vlen + 1 <= Z.of_nat (length v) <= vlen + 2 /\
    forall i, 1 <= i -> match stored h i with Some e => rd v i = Some e /\ i <= vlen | None => i <= len -> rd v i = Some 0 end.
Proof.
  induction 1 as [Hl|h v i e ok junk v' R IH Hi S].
  - exists len. assert (L : length (vec_new len) = S (Z.to_nat (len + 1))) by (cbn; rewrite repeat_length; auto).
    rewrite L. unfold index_max in Hl. repeat split; try lia. intros i Hi. cbn [stored]. intros. apply rd_new_zero; lia.
  - destruct IH as (vlen&R0&Hv&Hlen&HL&IH).
    pose proof (store_ok ok junk v i e vlen R0 Hv HL Hi) as G. rewrite S in G.
    destruct G as (nlen&A&B&C&D&E&F). exists nlen. repeat split; auto; try lia.
    intros j Hj. cbn [stored]. destruct (Z.eqb_spec i j) as [->|N]; [split; auto|].
    specialize (IH j Hj). destruct (stored h j) as [e'|].
    + destruct IH as (I1&I2). split; [|lia]. rewrite F; auto; lia.
    + intros Hjl. rewrite F; auto; lia.
Qed.

Lemma vec_kept len h v i e : vec_run len h v -> 1 <= i -> stored h i = Some e -> rd v i = Some e.
Proof. intros R Hi S. destruct (vec_run_inv _ _ _ R) as (vlen&_&_&_&_&I). specialize (I i Hi). rewrite S in I. tauto. Qed.
Lemma vec_fresh len h v i : vec_run len h v -> 1 <= i <= len -> stored h i = None -> rd v i = Some 0.
Proof. intros R Hi S. destruct (vec_run_inv _ _ _ R) as (vlen&_&_&_&_&I). specialize (I i ltac:(lia)). rewrite S in I. apply I. lia. Qed.
Lemma vec_store_defined len h v i e ok junk : vec_run len h v -> 1 <= i <= index_max ->
  (exists v', vec_store ok junk v i e = VOk v') \/ (vec_store ok junk v i e = VFail /\ ok = false).
Proof.
  intros R Hi. destruct (vec_run_inv _ _ _ R) as (vlen&R0&Hv&Hlen&HL&_).
  pose proof (store_ok ok junk v i e vlen R0 Hv HL Hi) as G. destruct (vec_store ok junk v i e); [eauto|auto|contradiction].
Qed.

(** Counting vectors. *)
Lemma stored_next h i : next_index h <= i -> stored h i = None.
Proof. induction h as [|[j e] h IH]; cbn; auto. intros H. destruct (Z.eqb_spec j i); [lia|]. apply IH. lia. Qed.
Lemma next_ge2 h : 2 <= next_index h.
Proof. induction h as [|[j e] h IH]; cbn; lia. Qed.

Lemma cstore_ok ok junk v i e vlen next : rd v 0 = Some vlen -> rd v 1 = Some next -> 0 <= vlen < 2 ^ 31 ->
  vlen + 1 <= Z.of_nat (length v) <= vlen + 2 -> 1 <= vlen -> 2 <= i < index_max ->
  match cvec_store ok junk v i e with
  | VOk v' => exists nlen, rd v' 0 = Some nlen /\ vlen <= nlen < 2 ^ 31 /\ i <= nlen /\ nlen + 1 <= Z.of_nat (length v') <= nlen + 2 /\
                rd v' i = Some e /\ rd v' 1 = Some (Z.max (i + 1) next) /\
                forall j, 2 <= j < Z.of_nat (length v) -> j <= nlen -> j <> i -> rd v' j = rd v j
  | VFail => ok = false
  | VUB => False
  end.
Proof.
  intros R0 R1 Hv HL H1 Hi. unfold cvec_store.
  pose proof (store_ok ok junk v i e vlen R0 Hv HL ltac:(lia)) as G.
  destruct (vec_store ok junk v i e) as [w| |]; auto. destruct G as (nlen&A&B&C&D&E&F).
  assert (W1 : rd w 1 = Some next) by (rewrite F; auto; lia). rewrite W1.
  destruct (Z.leb_spec next i) as [L|L].
  - unfold wr_res. destruct (wr_ok w 1 (i + 1)) as (v'&E'&L'&R'&O'); [lia|]. rewrite E'. exists nlen.
    rewrite !O' by lia. rewrite L'. repeat split; auto; try lia.
    + rewrite R'. f_equal. lia.
    + intros j Hj Hm Hne. rewrite O' by lia. apply F; lia.
  - exists nlen. repeat split; auto; try lia.
    + rewrite W1. f_equal. lia.
    + intros j Hj Hm Hne. apply F; lia.
Qed.

Lemma cvec_run_inv len h v : cvec_run len h v ->
  exists vlen, rd v 0 = Some vlen /\ 1 <= vlen < 2 ^ 31 /\ len <= vlen /\ vlen + 1 <= Z.of_nat (length v) <= vlen + 2 /\
    rd v 1 = Some (next_index h) /\
    (forall i e, stored h i = Some e -> 2 <= i /\ rd v i = Some e /\ i <= vlen).
Proof.
  induction 1 as [junk Hl|h v i e ok junk v' R IH Hi S|h v i e ok junk v' R IH R1 Hi S].
  - exists len. assert (L : length (cvec_new len junk) = S (S (Z.to_nat len))) by (cbn; rewrite map_length, seq_length; auto).
    rewrite L. unfold index_max in Hl. repeat split; try lia; discriminate.
  - destruct IH as (vlen&R0&Hv&Hlen&HL&N&IH).
    pose proof (cstore_ok ok junk v i e vlen _ R0 N ltac:(lia) HL ltac:(lia) Hi) as G. rewrite S in G.
    destruct G as (nlen&A&B&C&D&E&F&K). exists nlen. split; auto. split; [lia|]. split; [lia|]. split; [auto|]. split; [exact F|].
    intros j e'. cbn [stored]. destruct (Z.eqb_spec i j) as [->|Ne]; [intros X; inversion X; subst; auto with zarith|].
    intros X. destruct (IH j e' X) as (J1&J2&J3). split; auto. split; [|lia]. rewrite K; auto; lia.
  - destruct IH as (vlen&R0&Hv&Hlen&HL&N&IH). rewrite N in R1. inversion R1; subst i.
    unfold cvec_push in S. rewrite N in S. pose proof (next_ge2 h).
    pose proof (cstore_ok ok junk v (next_index h) e vlen _ R0 N ltac:(lia) HL ltac:(lia) ltac:(lia)) as G. rewrite S in G.
    destruct G as (nlen&A&B&C&D&E&F&K). exists nlen. split; auto. split; [lia|]. split; [lia|]. split; [auto|]. split; [exact F|].
    intros j e'. cbn [stored]. destruct (Z.eqb_spec (next_index h) j) as [<-|Ne]; [intros X; injection X as <-; auto with zarith|].
    intros X. destruct (IH j e' X) as (J1&J2&J3). split; auto. split; [|lia]. rewrite K; auto; lia.
Qed.
Lemma cvec_kept len h v i e : cvec_run len h v -> stored h i = Some e -> rd v i = Some e.
Proof. intros R S. destruct (cvec_run_inv _ _ _ R) as (vlen&_&_&_&_&_&I). apply (I i e S). Qed.
Lemma cvec_next len h v : cvec_run len h v -> rd v 1 = Some (next_index h).
Proof. intros R. destruct (cvec_run_inv _ _ _ R) as (vlen&_&_&_&_&I&_). exact I. Qed.
Lemma cvec_push_defined len h v e ok junk : cvec_run len h v -> next_index h < index_max ->
  (exists v', cvec_push ok junk v e = VOk v' /\ cvec_run len ((next_index h, e) :: h) v') \/
  (cvec_push ok junk v e = VFail /\ ok = false).
Proof.
  intros R Hi. destruct (cvec_run_inv _ _ _ R) as (vlen&R0&Hv&Hlen&HL&N&_). pose proof (next_ge2 h).
  pose proof (cstore_ok ok junk v (next_index h) e vlen _ R0 N ltac:(lia) HL ltac:(lia) ltac:(lia)) as G.
  assert (P : cvec_push ok junk v e = cvec_store ok junk v (next_index h) e) by (unfold cvec_push; rewrite N; auto).
  destruct (cvec_store ok junk v (next_index h) e) as [v'| |] eqn:E; [|auto|contradiction].
  left. exists v'. split; auto. eapply cr_push; eauto.
Qed.
Lemma cvec_store_defined len h v i e ok junk : cvec_run len h v -> 2 <= i < index_max ->
  (exists v', cvec_store ok junk v i e = VOk v') \/ (cvec_store ok junk v i e = VFail /\ ok = false).
Proof.
  intros R Hi. destruct (cvec_run_inv _ _ _ R) as (vlen&R0&Hv&Hlen&HL&N&_).
  pose proof (cstore_ok ok junk v i e vlen _ R0 N ltac:(lia) HL ltac:(lia) Hi) as G.
  destruct (cvec_store ok junk v i e) as [v'| |]; [eauto|auto|contradiction].
Qed.

(** Buffers. *)
Fixpoint chained (bs : list (Z * Z)) (top : Z) : Prop :=
  match bs with [] => 2 <= top | (p, n) :: bs => 0 <= n /\ p + n = top /\ chained bs p end.
Lemma chained_top bs : forall top, chained bs top -> 2 <= top /\ forall p n, In (p, n) bs -> 2 <= p /\ 0 <= n /\ p + n <= top.
Proof.
  induction bs as [|[p n] bs IH]; intros top H; cbn in H; [split; [auto|intros ? ? []]|].
  destruct H as (A&B&C). destruct (IH p C) as (D&E). split; [lia|]. intros q m [F|F].
  - inversion F; subst. lia.
  - specialize (E q m F). lia.
Qed.
Lemma buf_inv len bs v : buf_run len bs v ->
  exists next, rd v 0 = Some len /\ rd v 1 = Some next /\ 0 <= len /\ Z.of_nat (length v) = len + 2 /\ chained bs next /\
               (bs <> [] -> next < len).
Proof.
  induction 1 as [junk Hl|bs v n pos v' R IH Hn E|bs v b n i e v' R IH Hin Hi E].
  - exists 2. cbn [length cvec_new]. rewrite map_length, seq_length. cbn [chained]. repeat split; auto; try lia. congruence.
  - destruct IH as (next&R0&R1&H0&HL&C&T). unfold alloc_from_cvec in E. rewrite R0, R1 in E.
    destruct (Z.leb_spec len (next + n)); [discriminate|].
    destruct (wr v 1 (next + n)) as [w|] eqn:W; [|discriminate]. inversion E; subst.
    destruct (wr_some _ _ _ _ W) as (W1&W2&W3&W4). exists (pos + n). rewrite W4, W2 by lia. cbn [chained]. repeat split; auto; lia.
  - destruct IH as (next&R0&R1&H0&HL&C&T). destruct (wr_some _ _ _ _ E) as (W1&W2&W3&W4).
    destruct (chained_top _ _ C) as (C1&C2). specialize (C2 b n Hin). exists next. rewrite !W4, W2 by lia. auto 10.
Qed.
Lemma buf_fresh len bs v n pos v' : buf_run len bs v -> 0 <= n <= index_max -> alloc_from_cvec v n = Some (pos, v') ->
  2 <= pos /\ pos + n < len /\ (forall i, pos <= i < pos + n -> exists e, rd v' i = Some e) /\
  forall p m, In (p, m) bs -> p + m <= pos.
Proof.
  intros R Hn E. pose proof (br_alloc len bs v n pos v' R Hn E) as R'.
  destruct (buf_inv _ _ _ R') as (next&R0&R1&H0&HL&C&T). specialize (T ltac:(discriminate)).
  cbn [chained] in C. destruct C as (C1&C2&C3). destruct (chained_top _ _ C3) as (D1&D2).
  repeat split; try lia.
  - intros i Hi. apply rd_some. lia.
  - intros p m Hin. specialize (D2 p m Hin). lia.
Qed.
