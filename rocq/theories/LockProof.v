(** Invariants of the lock protocols. *)
From Coq Require Import List ZArith Bool Lia Relations Permutation.
From Verif Require Import Word64 LockModel LockSpec.
Import ListNotations.
Open Scope Z_scope.

Definition b2z (b : bool) : Z := if b then 1 else 0.
Fixpoint cnt {P} (f : P -> bool) (ps : list P) : Z :=
  match ps with [] => 0 | p :: ps => b2z (f p) + cnt f ps end.
Lemma cnt_nonneg {P} (f : P -> bool) ps : 0 <= cnt f ps.
Proof. induction ps as [|p ps IH]; cbn [cnt]; [lia|]. destruct (f p); cbn [b2z]; lia. Qed.
Lemma cnt_le {P} (f : P -> bool) ps : cnt f ps <= Z.of_nat (length ps).
Proof. induction ps as [|p ps IH]; cbn [cnt length]; [lia|]. destruct (f p); cbn [b2z]; lia. Qed.
Lemma cnt_set {P} (f : P -> bool) p p' : forall ps i, nth_error ps i = Some p ->
  cnt f (set_nth i p' ps) = cnt f ps - b2z (f p) + b2z (f p').
Proof.
  induction ps as [|q ps IH]; intros [|i] H; cbn in H; try discriminate.
  - injection H as ->. cbn [set_nth cnt]. lia.
  - cbn [set_nth cnt]. rewrite (IH _ H). lia.
Qed.
Lemma cnt_repeat {P} (f : P -> bool) p n : f p = false -> cnt f (repeat p n) = 0.
Proof. intros H. induction n as [|n IH]; cbn [repeat cnt]; [reflexivity|]. rewrite H, IH. reflexivity. Qed.
Lemma cnt_pos {P} (f : P -> bool) ps i p : nth_error ps i = Some p -> f p = true -> 1 <= cnt f ps.
Proof.
  revert i. induction ps as [|q ps IH]; intros [|i] H Hp; cbn in H; try discriminate.
  - injection H as ->. cbn [cnt]. rewrite Hp. pose proof (cnt_nonneg f ps). cbn [b2z]. lia.
  - cbn [cnt]. specialize (IH i H Hp). destruct (f q); cbn [b2z]; lia.
Qed.
Lemma cnt_two {P} (f : P -> bool) ps : forall i j p q, i <> j -> nth_error ps i = Some p -> nth_error ps j = Some q ->
  f p = true -> f q = true -> 2 <= cnt f ps.
Proof.
  induction ps as [|x ps IH]; intros [|i] [|j] p q Hij Hi Hj Hp Hq; cbn in Hi, Hj; try discriminate; try congruence.
  - injection Hi as ->. cbn [cnt]. rewrite Hp. pose proof (cnt_pos f ps j q Hj Hq). cbn [b2z]. lia.
  - injection Hj as ->. cbn [cnt]. rewrite Hq. pose proof (cnt_pos f ps i p Hi Hp). cbn [b2z]. lia.
  - cbn [cnt]. assert (2 <= cnt f ps) by (eapply (IH i j); eauto). destruct (f x); cbn [b2z]; lia.
Qed.
Lemma set_nth_len {P} (p : P) : forall ps i, length (set_nth i p ps) = length ps.
Proof. induction ps as [|q ps IH]; intros [|i]; cbn; auto. Qed.
Lemma set_nth_same {P} (p : P) : forall ps i q, nth_error ps i = Some q -> nth_error (set_nth i p ps) i = Some p.
Proof. induction ps as [|x ps IH]; intros [|i] q H; cbn in *; try discriminate; eauto. Qed.
Lemma set_nth_other {P} (p : P) : forall ps i j, i <> j -> nth_error (set_nth i p ps) j = nth_error ps j.
Proof. induction ps as [|x ps IH]; intros [|i] [|j] H; cbn; auto; try congruence. Qed.
Lemma set_nth_cases {P} (p : P) ps i j q r : nth_error ps i = Some r -> nth_error (set_nth i p ps) j = Some q ->
  (j = i /\ q = p) \/ (j <> i /\ nth_error ps j = Some q).
Proof.
  intros Hi H. destruct (Nat.eq_dec j i) as [->|Hj].
  - rewrite (set_nth_same p _ _ _ Hi) in H. left. split; congruence.
  - rewrite set_nth_other in H by auto. right. split; auto.
Qed.

Lemma clear_flag w : Z.land w (-2) = 2 * (w / 2).
Proof.
  replace (-2) with (Z.lnot (Z.ones 1)) by reflexivity. rewrite <- Z.ldiff_land, Z.ldiff_ones_r by lia.
  rewrite Z.shiftr_div_pow2, Z.shiftl_mul_pow2 by lia. change (2 ^ 1) with 2. lia.
Qed.
Lemma flag w : Z.land w 1 = w mod 2.
Proof. change 1 with (Z.ones 1). rewrite Z.land_ones by lia. reflexivity. Qed.
Lemma small w : 0 <= w < 2 ^ 63 -> w64 w = w.
Proof. intros H. apply w64_id. unfold in64, int_min, int_max. lia. Qed.

(** * Reader preference *)
Definition rp_counted (p : rpc) : bool := match p with RRCheck | RRBack | RRHold => true | _ => false end.
Definition rp_inv (n : nat) (c : Z * list rpc) : Prop :=
  let (w, ps) := c in
  length ps = n /\ cnt rp_writes ps <= 1 /\ w = cnt rp_writes ps + 2 * cnt rp_counted ps /\
  (cnt rp_reads ps = 0 \/ cnt rp_writes ps = 0).
Lemma rp_inv_run n c : Z.of_nat n < 2 ^ 61 -> rp_run n c -> rp_inv n c.
Proof.
  intros Hn R. unfold rp_run in R. apply clos_rt_rtn1 in R. induction R as [|c c' T R IH].
  - cbn [rp_inv]. rewrite repeat_length, !cnt_repeat by reflexivity. lia.
  - destruct T as [w ps i p w' p' Hi St]. cbn [rp_inv] in *. destruct IH as (L&W&E&X).
    pose proof (cnt_nonneg rp_writes ps) as G1. pose proof (cnt_nonneg rp_counted ps) as G2. pose proof (cnt_nonneg rp_reads ps) as G3.
    pose proof (cnt_le rp_counted ps) as G4. pose proof (cnt_pos rp_writes ps i p Hi) as P1. pose proof (cnt_pos rp_counted ps i p Hi) as P2.
    pose proof (cnt_pos rp_reads ps i p Hi) as P3.
    rewrite !(cnt_set _ p p' ps i Hi), set_nth_len. split; [exact L|].
    change (2 ^ 61) with 2305843009213693952 in *.
    assert (B : 0 <= w /\ w + 2 < 2 ^ 63) by (change (2 ^ 63) with 9223372036854775808; lia).
    assert (R2 : cnt rp_reads ps <= cnt rp_counted ps).
    { clear. induction ps as [|q ps IH]; cbn [cnt]; [lia|]. destruct q; cbn [rp_reads rp_counted b2z]; lia. }
    destruct St; cbn [rp_writes rp_reads rp_counted b2z] in *; try (rewrite ?flag in * ); try lia.
    + specialize (P1 eq_refl). rewrite clear_flag. assert (cnt rp_writes ps = 1) by lia.
      replace (w / 2) with (cnt rp_counted ps) by (apply (Z.div_unique w 2 _ 1); lia). lia.
    + rewrite small by lia. lia.
    + assert (cnt rp_writes ps = 0); [|lia]. match goal with X : _ mod 2 = 0 |- _ => rename X into H2 end. rewrite E in H2.
      replace (cnt rp_writes ps + 2 * cnt rp_counted ps) with (cnt rp_writes ps + cnt rp_counted ps * 2) in H2 by lia.
      rewrite Z_mod_plus_full in H2. destruct (Z.eq_dec (cnt rp_writes ps) 1) as [E1|]; [rewrite E1 in H2; discriminate|lia].
    + specialize (P2 eq_refl). rewrite small by lia. lia.
    + specialize (P2 eq_refl). specialize (P3 eq_refl). rewrite small by lia. lia.
Qed.
Lemma rp_exclusive n w ps : Z.of_nat n < 2 ^ 61 -> rp_run n (w, ps) -> exclusive rp_writes rp_reads ps.
Proof.
  intros Hn R. destruct (rp_inv_run n _ Hn R) as (L&W&E&X). intros i j p q Hij Hi Hj Hp.
  pose proof (cnt_pos _ _ _ _ Hi Hp). split.
  - destruct (rp_writes q) eqn:Hq; [|reflexivity]. pose proof (cnt_two _ _ i j p q Hij Hi Hj Hp Hq). lia.
  - destruct (rp_reads q) eqn:Hq; [|reflexivity]. pose proof (cnt_pos _ _ _ _ Hj Hq). lia.
Qed.
Lemma rp_free n w ps : Z.of_nat n < 2 ^ 61 -> rp_run n (w, ps) -> (forall p, In p ps -> p = RIdle \/ p = RWTry \/ p = RRInc) -> w = 0.
Proof.
  intros Hn R Hall. destruct (rp_inv_run n _ Hn R) as (L&W&E&X). rewrite E. clear - Hall.
  induction ps as [|p ps IH]; [reflexivity|]. cbn [cnt]. destruct (Hall p (or_introl eq_refl)) as [->|[->| ->]]; cbn [rp_writes rp_counted b2z];
  cbn; apply IH; intros q Hq; apply Hall; right; exact Hq.
Qed.

(** * Writer preference *)
Definition wp_present (p : wpc) : bool := match p with WWTry | WWBack | WWHold | WWDec => true | _ => false end.
Definition wp_ok (p : wpc) : Prop := match p with WRCas r => r mod 2 = 0 | _ => True end.
Definition wp_inv (n : nat) (c : Z * Z * list wpc) : Prop :=
  let '(w, m, ps) := c in
  length ps = n /\ Forall wp_ok ps /\ cnt wp_writes ps <= 1 /\ w = cnt wp_writes ps + 2 * cnt wp_reads ps /\
  m = cnt wp_present ps /\ (cnt wp_reads ps = 0 \/ cnt wp_writes ps = 0).
Lemma Forall_set {P} (Q : P -> Prop) p : forall ps i, Forall Q ps -> Q p -> Forall Q (set_nth i p ps).
Proof. induction ps as [|q ps IH]; intros [|i] H Hp; cbn; inversion H; subst; constructor; auto. Qed.
Lemma Forall_nth_error {P} (Q : P -> Prop) : forall ps i p, Forall Q ps -> nth_error ps i = Some p -> Q p.
Proof. intros ps i p H Hi. rewrite Forall_forall in H. apply H. eapply nth_error_In; eauto. Qed.
Lemma wp_inv_run n c : Z.of_nat n < 2 ^ 61 -> wp_run n c -> wp_inv n c.
Proof.
  intros Hn R. unfold wp_run in R. apply clos_rt_rtn1 in R. induction R as [|c c' T R IH].
  - cbn [wp_inv]. rewrite repeat_length, !cnt_repeat by reflexivity. split; [reflexivity|]. split; [|lia].
    apply Forall_forall. intros p Hp. apply repeat_spec in Hp. subst p. exact I.
  - destruct T as [s ps i p s' p' Hi St]. destruct s as [w m], s' as [w' m']. cbn [wp_inv] in *. destruct IH as (L&F&W&E&M&X).
    pose proof (Forall_nth_error _ _ _ _ F Hi) as Fp.
    pose proof (cnt_nonneg wp_writes ps). pose proof (cnt_nonneg wp_present ps). pose proof (cnt_nonneg wp_reads ps).
    pose proof (cnt_le wp_reads ps). pose proof (cnt_le wp_present ps).
    pose proof (cnt_pos wp_writes ps i p Hi) as P1. pose proof (cnt_pos wp_present ps i p Hi) as P2.
    pose proof (cnt_pos wp_reads ps i p Hi) as P3.
    rewrite !(cnt_set _ p p' ps i Hi), set_nth_len. split; [exact L|].
    change (2 ^ 61) with 2305843009213693952 in *.
    assert (B : 0 <= w /\ w + 2 < 2 ^ 63) by (change (2 ^ 63) with 9223372036854775808; lia).
    assert (B' : 0 <= m /\ m + 2 < 2 ^ 63) by (change (2 ^ 63) with 9223372036854775808; lia).
    split. { apply Forall_set; [exact F|]. inversion St; subst; cbn [wp_ok]; auto. rewrite clear_flag. replace (2 * ((cnt wp_writes ps + 2 * cnt wp_reads ps) / 2)) with (((cnt wp_writes ps + 2 * cnt wp_reads ps) / 2) * 2) by lia. apply Z_mod_mult. }
    inversion St; subst p p'; subst; cbn [wp_writes wp_reads wp_present b2z wp_ok] in *; try lia.
    + rewrite small by lia. lia.
    + specialize (P2 eq_refl). rewrite small by lia. lia.
    + specialize (P1 eq_refl). rewrite clear_flag. 
      replace ((cnt wp_writes ps + 2 * cnt wp_reads ps) / 2) with (cnt wp_reads ps) by (apply (Z.div_unique _ 2 _ 1); lia). lia.
    + specialize (P2 eq_refl). rewrite small by lia. lia.
    + assert (cnt wp_writes ps = 0).
      { replace (cnt wp_writes ps + 2 * cnt wp_reads ps) with (cnt wp_writes ps + cnt wp_reads ps * 2) in Fp by lia.
        rewrite Z_mod_plus_full in Fp. destruct (Z.eq_dec (cnt wp_writes ps) 1) as [E1|]; [rewrite E1 in Fp; discriminate|lia]. }
      rewrite small by lia. lia.
    + specialize (P3 eq_refl). rewrite small by lia. lia.
Qed.
Lemma wp_exclusive n s ps : Z.of_nat n < 2 ^ 61 -> wp_run n (s, ps) -> exclusive wp_writes wp_reads ps.
Proof.
  intros Hn R. destruct s as [w m]. destruct (wp_inv_run n _ Hn R) as (L&F&W&E&M&X). intros i j p q Hij Hi Hj Hp.
  pose proof (cnt_pos _ _ _ _ Hi Hp). split.
  - destruct (wp_writes q) eqn:Hq; [|reflexivity]. pose proof (cnt_two _ _ i j p q Hij Hi Hj Hp Hq). lia.
  - destruct (wp_reads q) eqn:Hq; [|reflexivity]. pose proof (cnt_pos _ _ _ _ Hj Hq). lia.
Qed.
Lemma wp_free n w m ps : Z.of_nat n < 2 ^ 61 -> wp_run n (w, m, ps) -> (forall p, In p ps -> p = WIdle \/ p = WRWait \/ p = WWInc) -> w = 0 /\ m = 0.
Proof.
  intros Hn R Hall. destruct (wp_inv_run n _ Hn R) as (L&F&W&E&M&X). rewrite E, M. clear - Hall.
  induction ps as [|p ps IH]; [split; reflexivity|]. cbn [cnt]. destruct IH as [I1 I2]; [intros q Hq; apply Hall; right; exact Hq|].
  destruct (Hall p (or_introl eq_refl)) as [->|[->| ->]]; cbn [wp_writes wp_reads wp_present b2z]; lia.
Qed.

(** * The queued lock *)
Lemma f_next_q_next nd a v b : q_next (set_next nd a v b) = if b =? a then v else q_next (nd b).
Proof. unfold set_next, put. destruct (b =? a); reflexivity. Qed.
Lemma f_next_q_prev nd a v b : q_prev (set_next nd a v b) = q_prev (nd b).
Proof. unfold set_next, put. destruct (Z.eqb_spec b a); subst; reflexivity. Qed.
Lemma f_next_q_waiting nd a v b : q_waiting (set_next nd a v b) = q_waiting (nd b).
Proof. unfold set_next, put. destruct (Z.eqb_spec b a); subst; reflexivity. Qed.
Lemma f_next_q_cell nd a v b : q_cell (set_next nd a v b) = q_cell (nd b).
Proof. unfold set_next, put. destruct (Z.eqb_spec b a); subst; reflexivity. Qed.
Lemma f_next_q_class nd a v b : q_class (set_next nd a v b) = q_class (nd b).
Proof. unfold set_next, put. destruct (Z.eqb_spec b a); subst; reflexivity. Qed.
Lemma f_prev_q_next nd a v b : q_next (set_prev nd a v b) = q_next (nd b).
Proof. unfold set_prev, put. destruct (Z.eqb_spec b a); subst; reflexivity. Qed.
Lemma f_prev_q_prev nd a v b : q_prev (set_prev nd a v b) = if b =? a then v else q_prev (nd b).
Proof. unfold set_prev, put. destruct (b =? a); reflexivity. Qed.
Lemma f_prev_q_waiting nd a v b : q_waiting (set_prev nd a v b) = q_waiting (nd b).
Proof. unfold set_prev, put. destruct (Z.eqb_spec b a); subst; reflexivity. Qed.
Lemma f_prev_q_cell nd a v b : q_cell (set_prev nd a v b) = q_cell (nd b).
Proof. unfold set_prev, put. destruct (Z.eqb_spec b a); subst; reflexivity. Qed.
Lemma f_prev_q_class nd a v b : q_class (set_prev nd a v b) = q_class (nd b).
Proof. unfold set_prev, put. destruct (Z.eqb_spec b a); subst; reflexivity. Qed.
Lemma f_waiting_q_next nd a v b : q_next (set_waiting nd a v b) = q_next (nd b).
Proof. unfold set_waiting, put. destruct (Z.eqb_spec b a); subst; reflexivity. Qed.
Lemma f_waiting_q_prev nd a v b : q_prev (set_waiting nd a v b) = q_prev (nd b).
Proof. unfold set_waiting, put. destruct (Z.eqb_spec b a); subst; reflexivity. Qed.
Lemma f_waiting_q_waiting nd a v b : q_waiting (set_waiting nd a v b) = if b =? a then v else q_waiting (nd b).
Proof. unfold set_waiting, put. destruct (b =? a); reflexivity. Qed.
Lemma f_waiting_q_cell nd a v b : q_cell (set_waiting nd a v b) = q_cell (nd b).
Proof. unfold set_waiting, put. destruct (Z.eqb_spec b a); subst; reflexivity. Qed.
Lemma f_waiting_q_class nd a v b : q_class (set_waiting nd a v b) = q_class (nd b).
Proof. unfold set_waiting, put. destruct (Z.eqb_spec b a); subst; reflexivity. Qed.
Lemma f_cell_of_q_next nd a v b : q_next (set_cell_of nd a v b) = q_next (nd b).
Proof. unfold set_cell_of, put. destruct (Z.eqb_spec b a); subst; reflexivity. Qed.
Lemma f_cell_of_q_prev nd a v b : q_prev (set_cell_of nd a v b) = q_prev (nd b).
Proof. unfold set_cell_of, put. destruct (Z.eqb_spec b a); subst; reflexivity. Qed.
Lemma f_cell_of_q_waiting nd a v b : q_waiting (set_cell_of nd a v b) = q_waiting (nd b).
Proof. unfold set_cell_of, put. destruct (Z.eqb_spec b a); subst; reflexivity. Qed.
Lemma f_cell_of_q_cell nd a v b : q_cell (set_cell_of nd a v b) = if b =? a then v else q_cell (nd b).
Proof. unfold set_cell_of, put. destruct (b =? a); reflexivity. Qed.
Lemma f_cell_of_q_class nd a v b : q_class (set_cell_of nd a v b) = q_class (nd b).
Proof. unfold set_cell_of, put. destruct (Z.eqb_spec b a); subst; reflexivity. Qed.
Lemma f_class_q_next nd a v b : q_next (set_class nd a v b) = q_next (nd b).
Proof. unfold set_class, put. destruct (Z.eqb_spec b a); subst; reflexivity. Qed.
Lemma f_class_q_prev nd a v b : q_prev (set_class nd a v b) = q_prev (nd b).
Proof. unfold set_class, put. destruct (Z.eqb_spec b a); subst; reflexivity. Qed.
Lemma f_class_q_waiting nd a v b : q_waiting (set_class nd a v b) = q_waiting (nd b).
Proof. unfold set_class, put. destruct (Z.eqb_spec b a); subst; reflexivity. Qed.
Lemma f_class_q_cell nd a v b : q_cell (set_class nd a v b) = q_cell (nd b).
Proof. unfold set_class, put. destruct (Z.eqb_spec b a); subst; reflexivity. Qed.
Lemma f_class_q_class nd a v b : q_class (set_class nd a v b) = if b =? a then v else q_class (nd b).
Proof. unfold set_class, put. destruct (b =? a); reflexivity. Qed.
Global Hint Rewrite f_next_q_next f_next_q_prev f_next_q_waiting f_next_q_cell f_next_q_class f_prev_q_next f_prev_q_prev f_prev_q_waiting f_prev_q_cell f_prev_q_class f_waiting_q_next f_waiting_q_prev f_waiting_q_waiting f_waiting_q_cell f_waiting_q_class f_cell_of_q_next f_cell_of_q_prev f_cell_of_q_waiting f_cell_of_q_cell f_cell_of_q_class f_class_q_next f_class_q_prev f_class_q_waiting f_class_q_cell f_class_q_class : lk.

Fixpoint dseg (nd : Z -> qnode) (p : Z) (a : list Z) (n : Z) : Prop :=
  match a with
  | [] => True
  | x :: r => x <> 0 /\ q_prev (nd x) = p /\ q_next (nd x) = hd n r /\ dseg nd x r n
  end.
Fixpoint flist (nd : Z -> qnode) (a : Z) (fs : list Z) : Prop :=
  match fs with [] => a = 0 | x :: r => a = x /\ x <> 0 /\ flist nd (q_cell (nd x)) r end.

Lemma last_in : forall (a : list Z) d, a <> [] -> In (last a d) a.
Proof. induction a as [|x a IH]; intros d H; [congruence|]. destruct a as [|y a]; [left; reflexivity|]. right. apply (IH d). discriminate. Qed.
Lemma last_indep : forall (a : list Z) d d', a <> [] -> last a d = last a d'.
Proof. induction a as [|x a IH]; intros d d' H; [congruence|]. destruct a as [|y a]; [reflexivity|]. apply (IH d d'). discriminate. Qed.
Lemma last_cons (x : Z) a d : last (x :: a) d = last a x.
Proof. destruct a as [|y a]; [reflexivity|]. change (last (x :: y :: a) d) with (last (y :: a) d). apply last_indep. discriminate. Qed.
Lemma last_app' (a b : list Z) d : last (a ++ b) d = last b (last a d).
Proof. revert d. induction a as [|x a IH]; intros d; [reflexivity|]. cbn [List.app]. rewrite !last_cons. apply IH. Qed.
Lemma dseg_nz nd : forall a p n x, dseg nd p a n -> In x a -> x <> 0.
Proof. induction a as [|y a IH]; intros p n x H Hin; [destruct Hin|]. destruct H as (A&_&_&B). destruct Hin as [<-|Hin]; eauto. Qed.
Lemma dseg_app nd : forall a b p n, dseg nd p (a ++ b) n <-> dseg nd p a (hd n b) /\ dseg nd (last a p) b n.
Proof.
  induction a as [|x a IH]; intros b p n; cbn [List.app dseg]; [cbn; tauto|]. rewrite IH, last_cons.
  assert (E : hd n (a ++ b) = hd (hd n b) a) by (destruct a; reflexivity). rewrite E. tauto.
Qed.
Lemma dseg_ext nd nd' : forall a p n, (forall x, In x a -> q_prev (nd' x) = q_prev (nd x) /\ q_next (nd' x) = q_next (nd x)) -> dseg nd p a n -> dseg nd' p a n.
Proof.
  induction a as [|x a IH]; intros p n H D; cbn [dseg] in *; auto. destruct D as (A&B&C&E). destruct (H x (or_introl eq_refl)) as [-> ->].
  repeat split; auto. apply IH; auto. intros y Hy. apply H. right; exact Hy.
Qed.
Lemma dseg_last nd nd' : forall a p n n', NoDup a -> dseg nd p a n ->
  (forall x, In x a -> q_prev (nd' x) = q_prev (nd x)) ->
  (forall x, In x a -> q_next (nd' x) = if x =? last a 0 then n' else q_next (nd x)) -> dseg nd' p a n'.
Proof.
  induction a as [|x a IH]; intros p n n' N D H1 H2; [exact I|]. inversion N as [|? ? N1 N2]; subst. cbn [dseg] in *. destruct D as (A&B&C&E).
  rewrite (H1 x (or_introl eq_refl)), (H2 x (or_introl eq_refl)). split; [exact A|]. split; [exact B|]. split.
  - destruct a as [|y a]; [cbn; rewrite Z.eqb_refl; reflexivity|]. destruct (Z.eqb_spec x (last (x :: y :: a) 0)) as [E1|]; [|exact C].
    exfalso. apply N1. rewrite E1. rewrite last_cons. apply last_in. discriminate.
  - destruct a as [|y a]; [exact I|]. apply (IH x n n' N2 E).
    + intros z Hz. apply H1. right; exact Hz.
    + intros z Hz. rewrite (H2 z (or_intror Hz)). rewrite (last_cons x). rewrite (last_indep (y :: a) x 0) by discriminate. reflexivity.
Qed.
Lemma dseg_first nd nd' : forall a p p' n, NoDup a -> dseg nd p a n ->
  (forall x, In x a -> q_next (nd' x) = q_next (nd x)) ->
  (forall x, In x a -> q_prev (nd' x) = if x =? hd 0 a then p' else q_prev (nd x)) -> dseg nd' p' a n.
Proof.
  intros [|x a] p p' n N D H1 H2; [exact I|]. inversion N as [|? ? N1 N2]; subst. cbn [dseg hd] in *. destruct D as (A&B&C&E).
  rewrite (H1 x (or_introl eq_refl)), (H2 x (or_introl eq_refl)), Z.eqb_refl. split; [exact A|]. split; [reflexivity|]. split; [exact C|].
  eapply dseg_ext; [|exact E]. intros y Hy. rewrite (H1 y (or_intror Hy)), (H2 y (or_intror Hy)).
  destruct (Z.eqb_spec y x) as [->|]; [contradiction|]. auto.
Qed.

Lemma dseg_remove nd nd' q1 l q2 : NoDup (q1 ++ l :: q2) -> dseg nd 0 (q1 ++ l :: q2) 0 ->
  (forall x, In x (q1 ++ q2) -> q_next (nd' x) = if negb (q_prev (nd l) =? 0) && (x =? q_prev (nd l)) then q_next (nd l) else q_next (nd x)) ->
  (forall x, In x (q1 ++ q2) -> q_prev (nd' x) = if negb (q_next (nd l) =? 0) && (x =? q_next (nd l)) then q_prev (nd l) else q_prev (nd x)) ->
  dseg nd' 0 (q1 ++ q2) 0.
Proof.
  intros N D Hn Hp. pose proof D as D0. apply dseg_app in D as [D1 D2]. cbn [dseg hd] in D1, D2. destruct D2 as (Hl&Ep&En&D2). rewrite Ep, En in *.
  assert (N' : NoDup (q1 ++ q2)) by (apply NoDup_remove_1 in N; exact N).
  assert (N1 : NoDup q1) by (clear - N'; induction q1; [constructor|]; inversion N'; subst; constructor; auto; intros X; apply H1; apply in_or_app; auto).
  assert (N2 : NoDup q2) by (clear - N'; induction q1; [exact N'|]; inversion N'; subst; auto).
  assert (Dis : forall x, In x q1 -> ~ In x q2).
  { clear - N'. induction q1 as [|y q1 IH]; intros x [] Hx2; inversion N'; subst.
    - apply H2. apply in_or_app; auto.
    - eapply IH; eauto. }
  assert (Lz : q1 <> [] -> last q1 0 <> 0).
  { intros X. eapply dseg_nz; [exact D0|]. apply in_or_app. left. apply last_in, X. }
  assert (Hz : q2 <> [] -> hd 0 q2 <> 0 /\ In (hd 0 q2) q2).
  { intros X. destruct q2 as [|y q2]; [congruence|]. split; [|left; reflexivity]. eapply dseg_nz; [exact D0|]. apply in_or_app. right. right. left. reflexivity. }
  apply dseg_app. split.
  - eapply (dseg_last nd nd' q1 0 l); auto.
    + intros x Hx. rewrite (Hp x) by (apply in_or_app; auto). destruct (Z.eqb_spec x (hd 0 q2)) as [->|]; [|rewrite andb_false_r; reflexivity].
      destruct q2 as [|y q2]; [cbn; reflexivity|]. exfalso. eapply Dis; [exact Hx|]. apply Hz. discriminate.
    + intros x Hx. rewrite (Hn x) by (apply in_or_app; auto). assert (X : q1 <> []) by (intros ->; destruct Hx).
      rewrite (proj2 (Z.eqb_neq _ _) (Lz X)). cbn [negb andb]. reflexivity.
  - eapply (dseg_first nd nd' q2 l); auto.
    + intros x Hx. rewrite (Hn x) by (apply in_or_app; auto). destruct (Z.eqb_spec x (last q1 0)) as [->|]; [|rewrite andb_false_r; reflexivity].
      destruct q1 as [|y q1]; [cbn; reflexivity|]. exfalso. eapply Dis; [|exact Hx]. apply last_in. discriminate.
    + intros x Hx. rewrite (Hp x) by (apply in_or_app; auto). assert (X : q2 <> []) by (intros ->; destruct Hx).
      rewrite (proj2 (Z.eqb_neq _ _) (proj1 (Hz X))). cbn [negb andb]. reflexivity.
Qed.

(** Links, tail and free cells. *)
Definition shape (s : qshared) (q f : list Z) : Prop :=
  NoDup (q ++ f) /\ dseg (q_nd s) 0 q 0 /\ q_tail s = last q 0 /\ flist (q_nd s) (q_free s) f.
(** Who has the lock. *)
Definition active (nd : Z -> qnode) (q : list Z) : Prop := exists A B, q = A ++ B /\
  Forall (fun x => q_waiting (nd x) = 0) A /\ Forall (fun x => q_waiting (nd x) = 1) B /\
  (Forall (fun x => q_class (nd x) = lq_read) A \/ exists x, A = [x]).

Lemma flist_ext nd nd' : forall f a, (forall x, In x f -> q_cell (nd' x) = q_cell (nd x)) -> flist nd a f -> flist nd' a f.
Proof.
  induction f as [|x f IH]; intros a H D; cbn [flist] in *; auto. destruct D as (A&B&C). rewrite (H x (or_introl eq_refl)).
  repeat split; auto. apply IH; auto. intros y Hy. apply H. right; exact Hy.
Qed.
Lemma shape_remove s s' q1 l q2 f : shape s (q1 ++ l :: q2) f ->
  (forall x, q_next (q_nd s' x) = if negb (q_prev (q_nd s l) =? 0) && (x =? q_prev (q_nd s l)) then q_next (q_nd s l) else q_next (q_nd s x)) ->
  (forall x, q_prev (q_nd s' x) = if negb (q_next (q_nd s l) =? 0) && (x =? q_next (q_nd s l)) then q_prev (q_nd s l) else q_prev (q_nd s x)) ->
  (forall x, q_cell (q_nd s' x) = if x =? l then q_free s else q_cell (q_nd s x)) -> q_free s' = l ->
  q_tail s' = (if q_next (q_nd s l) =? 0 then q_prev (q_nd s l) else q_tail s) -> shape s' (q1 ++ q2) (l :: f).
Proof.
  intros (N&D&T&F) Hn Hp Hc Hf Ht. pose proof D as D0. apply dseg_app in D0 as [D1 D2]. cbn [dseg hd] in D1, D2. destruct D2 as (Hl&Ep&En&D2).
  assert (P : Permutation ((q1 ++ l :: q2) ++ f) ((q1 ++ q2) ++ l :: f)).
  { rewrite <- !app_assoc. apply Permutation_app_head. cbn [List.app]. apply Permutation_middle. }
  assert (N0 : NoDup (q1 ++ l :: q2)) by (clear - N; induction (q1 ++ l :: q2) as [|x r IH]; [constructor|]; inversion N; subst; constructor; auto; intros X; apply H1; apply in_or_app; auto).
  assert (Nl : ~ In l f) by (intros X; clear - N X; rewrite <- app_assoc in N; apply NoDup_remove_2 in N; apply N; apply in_or_app; right; apply in_or_app; auto).
  split; [exact (Permutation_NoDup P N)|]. split.
  - eapply (dseg_remove (q_nd s) (q_nd s') q1 l q2 N0 D); intros x _; [apply Hn|apply Hp].
  - split.
    + rewrite Ht, T, Ep, En, last_app', last_cons, last_app'. destruct q2 as [|y q2]; [reflexivity|]. cbn [hd].
      assert (y <> 0) by (eapply dseg_nz; [exact D2|left; reflexivity]). rewrite (proj2 (Z.eqb_neq y 0)) by auto. apply last_indep. discriminate.
    + cbn [flist]. rewrite Hf, Hc, Z.eqb_refl. split; [reflexivity|]. split; [exact Hl|]. eapply flist_ext; [|exact F].
      intros x Hx. rewrite Hc. destruct (Z.eqb_spec x l) as [->|]; [contradiction|reflexivity].
Qed.

Lemma split_mid (q1 : list Z) l q2 A B : q1 ++ l :: q2 = A ++ B ->
  (exists A2, A = q1 ++ l :: A2 /\ q2 = A2 ++ B) \/ (exists B1, q1 = A ++ B1 /\ B = B1 ++ l :: q2).
Proof.
  revert q1. induction A as [|x A IH]; intros q1 E.
  - right. exists q1. cbn in E. split; [reflexivity|congruence].
  - destruct q1 as [|y q1]; cbn in E; injection E as -> E.
    + left. exists A. split; [reflexivity|exact E].
    + destruct (IH q1 E) as [(A2&->&->)|(B1&->&->)]; [left; exists A2|right; exists B1]; split; reflexivity.
Qed.
Lemma active_ext nd nd' q : (forall x, In x q -> q_waiting (nd' x) = q_waiting (nd x) /\ q_class (nd' x) = q_class (nd x)) -> active nd q -> active nd' q.
Proof.
  intros H (A&B&->&HA&HB&HC). exists A, B. split; [reflexivity|]. rewrite Forall_forall in HA, HB. rewrite !Forall_forall.
  split; [intros x Hx; rewrite (proj1 (H x ltac:(apply in_or_app; auto))); auto|].
  split; [intros x Hx; rewrite (proj1 (H x ltac:(apply in_or_app; auto))); auto|].
  destruct HC as [HC|HC]; [left|right; exact HC]. rewrite Forall_forall in *. intros x Hx. rewrite (proj2 (H x ltac:(apply in_or_app; auto))). auto.
Qed.
Lemma active_remove nd q1 l q2 : active nd (q1 ++ l :: q2) -> active nd (q1 ++ q2).
Proof.
  intros (A&B&E&HA&HB&HC). destruct (split_mid _ _ _ _ _ E) as [(A2&->&->)|(B1&->&->)].
  - exists (q1 ++ A2), B. rewrite app_assoc. split; [reflexivity|]. rewrite Forall_app in *. destruct HA as [HA1 HA2]. inversion HA2; subst.
    split; [split; assumption|]. split; [exact HB|]. destruct HC as [HC|[x HC]].
    + left. rewrite Forall_app in *. destruct HC as [HC1 HC2]. inversion HC2; subst. split; assumption.
    + destruct q1 as [|y q1]; [|destruct q1; discriminate]. injection HC as _ ->. left. constructor.
  - exists A, (B1 ++ q2). rewrite app_assoc. split; [reflexivity|]. split; [exact HA|]. rewrite Forall_app in *. destruct HB as [HB1 HB2]. inversion HB2; subst. split; [split; assumption|exact HC].
Qed.

(** ** The critical sections *)
Lemma free_head s q f l f' : shape s q f -> f = l :: f' -> q_free s = l /\ l <> 0 /\ ~ In l q /\ flist (q_nd s) (q_cell (q_nd s l)) f' /\ ~ In l f'.
Proof.
  intros (N&D&T&F) ->. cbn [flist] in F. destruct F as (A&B&C). repeat split; auto.
  - intros X. apply NoDup_remove_2 in N. apply N. apply in_or_app; auto.
  - intros X. apply NoDup_remove_2 in N. apply N. apply in_or_app; auto.
Qed.
Lemma enqueue_ok k s q f l s' : shape s q f -> active (q_nd s) q -> enqueue k s = Some (l, s') ->
  exists f', f = l :: f' /\ shape s' (q ++ [l]) f' /\ active (q_nd s') (q ++ [l]) /\ q_class (q_nd s' l) = k /\ ~ In l q /\ q_lock s' = q_lock s /\
    (forall x, In x q -> q_class (q_nd s' x) = q_class (q_nd s x) /\ q_waiting (q_nd s' x) = q_waiting (q_nd s x)).
Proof.
  intros Sh Ac E. unfold enqueue in E. destruct (Z.eqb_spec (q_free s) 0) as [|Hf0]; [discriminate|].
  destruct f as [|l0 f']. { destruct Sh as (_&_&_&F). cbn in F. contradiction. }
  destruct (free_head _ _ _ _ _ Sh eq_refl) as (Hf&Hl0&Hlq&Hfl&Hlf). rewrite Hf in *.
  pose proof Sh as (N&D&T&_).
  set (nd0 := set_next (set_prev (set_class (q_nd s) l0 k) l0 (q_tail s)) l0 0) in *.
  cbn [q_tail q_lock q_free q_nd with_tail with_nd] in E. fold nd0 in E.
  set (nd1 := if negb (q_tail s =? 0) then _ else _) in E. injection E as <- <-. exists f'.
  assert (P1 : forall x, q_class (nd1 x) = if x =? l0 then k else q_class (q_nd s x)).
  { intros x. unfold nd1. destruct (negb _); [destruct (_ && _)|]; autorewrite with lk; unfold nd0; autorewrite with lk; reflexivity. }
  assert (P2 : forall x, x <> l0 -> q_waiting (nd1 x) = q_waiting (q_nd s x)).
  { intros x Hx. apply Z.eqb_neq in Hx. unfold nd1. destruct (negb _); [destruct (_ && _)|]; autorewrite with lk; rewrite Hx; unfold nd0; autorewrite with lk; reflexivity. }
  assert (P3 : forall x, q_prev (nd1 x) = if x =? l0 then q_tail s else q_prev (q_nd s x)).
  { intros x. unfold nd1. destruct (negb _); [destruct (_ && _)|]; autorewrite with lk; unfold nd0; autorewrite with lk; reflexivity. }
  assert (Tl : q_tail s <> l0).
  { rewrite T. destruct q as [|y q]; [cbn; auto|]. intros X. apply Hlq. rewrite <- X. apply last_in. discriminate. }
  assert (P4 : forall x, q_next (nd1 x) = if negb (q_tail s =? 0) && (x =? q_tail s) then l0 else if x =? l0 then 0 else q_next (q_nd s x)).
  { intros x. unfold nd1. destruct (negb _); [destruct (_ && _)|]; autorewrite with lk; cbn [andb]; unfold nd0; autorewrite with lk; reflexivity. }
  assert (P5 : forall x, q_cell (nd1 x) = q_cell (q_nd s x)).
  { intros x. unfold nd1. destruct (negb _); [destruct (_ && _)|]; autorewrite with lk; unfold nd0; autorewrite with lk; reflexivity. }
  assert (Tz : q_tail s = 0 -> q = []).
  { intros X. destruct q as [|y q]; [reflexivity|]. exfalso. eapply (dseg_nz _ _ _ _ (last (y :: q) 0) D); [apply last_in; discriminate|]. congruence. }
  split; [reflexivity|]. split; [|split; [|split; [|split; [|split]]]].
  - (* shape *)
    split; [|split; [|split]]; cbn [q_nd q_tail q_free].
    + rewrite <- app_assoc. exact N.
    + apply dseg_app. cbn [hd dseg]. split.
      * assert (Nq : NoDup q) by (clear - N; induction q as [|x r IH]; [constructor|]; inversion N; subst; constructor; auto; intros X; apply H1; apply in_or_app; auto).
        destruct q as [|y q]; [exact I|]. eapply (dseg_last (q_nd s) nd1 (y :: q) 0 0 l0); auto.
        -- intros x Hx. rewrite P3. destruct (Z.eqb_spec x l0) as [->|]; [contradiction|reflexivity].
        -- intros x Hx. rewrite P4, T. assert (L0 : last (y :: q) 0 <> 0) by (eapply dseg_nz; [exact D|apply last_in; discriminate]).
           rewrite (proj2 (Z.eqb_neq _ _) L0). cbn [negb andb]. destruct (Z.eqb_spec x (last (y :: q) 0)); [reflexivity|].
           destruct (Z.eqb_spec x l0) as [->|]; [contradiction|reflexivity].
      * split; [exact Hl0|]. rewrite P3, P4, Z.eqb_refl. split; [exact T|]. split; [|exact I].
        rewrite (proj2 (Z.eqb_neq l0 (q_tail s))) by auto. rewrite andb_false_r. reflexivity.
    + rewrite last_app'. reflexivity.
    + eapply flist_ext; [|exact Hfl]. intros x _. apply P5.
  - (* active *)
    destruct Ac as (A&B&->&HA&HB&HC). cbn [q_nd].
    assert (InA : forall x, In x A -> x <> l0) by (intros x Hx ->; apply Hlq; apply in_or_app; auto).
    assert (InB : forall x, In x B -> x <> l0) by (intros x Hx ->; apply Hlq; apply in_or_app; auto).
    assert (HA' : Forall (fun x => q_waiting (nd1 x) = 0) A) by (rewrite Forall_forall in *; intros x Hx; rewrite P2; auto).
    assert (HB' : Forall (fun x => q_waiting (nd1 x) = 1) B) by (rewrite Forall_forall in *; intros x Hx; rewrite P2; auto).
    assert (HC' : Forall (fun x => q_class (nd1 x) = lq_read) A \/ exists x, A = [x]).
    { destruct HC as [HC|HC]; [left|right; exact HC]. rewrite Forall_forall in *. intros x Hx. rewrite P1, (proj2 (Z.eqb_neq x l0)); auto. }
    assert (W : q_waiting (nd1 l0) = 1 \/ (q_waiting (nd1 l0) = 0 /\ (A ++ B = [] \/ (B = [] /\ k = lq_read /\ A <> [] /\ q_class (q_nd s (last A 0)) = lq_read)))).
    { unfold nd1. destruct (Z.eqb_spec (q_tail s) 0) as [E0|E0]; cbn [negb].
      - right. autorewrite with lk. rewrite Z.eqb_refl. split; [reflexivity|left; apply Tz, E0].
      - destruct (_ && _) eqn:C; autorewrite with lk; rewrite Z.eqb_refl; [right|left; reflexivity]. split; [reflexivity|right].
        apply andb_prop in C as [C C3]. apply andb_prop in C as [C1 C2]. apply Z.eqb_eq in C1, C2, C3.
        autorewrite with lk in C2, C3. unfold nd0 in C2, C3. autorewrite with lk in C2, C3. rewrite (proj2 (Z.eqb_neq _ _) Tl) in C2.
        assert (B = []).
        { destruct B as [|b B]; [reflexivity|]. exfalso. rewrite Forall_forall in HB.
          rewrite (HB (q_tail s)) in C3; [discriminate|]. rewrite T, last_app'. apply last_in. discriminate. }
        subst B. rewrite app_nil_r in T. rewrite T in C2, E0. repeat split; auto. intros ->. apply E0. reflexivity. }
    destruct W as [W|(W&[E|(->&->&Ane&Cl)])].
    + exists A, (B ++ [l0]). rewrite app_assoc. split; [reflexivity|]. split; [exact HA'|]. split; [|exact HC']. rewrite Forall_app. split; [exact HB'|]. constructor; auto.
    + apply app_eq_nil in E as [-> ->]. exists [l0], []. split; [reflexivity|]. split; [constructor; auto|]. split; [constructor|]. right. eauto.
    + exists (A ++ [l0]), []. rewrite !app_nil_r. split; [reflexivity|]. rewrite !Forall_app. split; [split; [exact HA'|constructor; auto]|]. split; [constructor|]. left.
      split; [|constructor; [rewrite P1, Z.eqb_refl; reflexivity|constructor]].
      destruct HC' as [HC'|[x ->]]; [exact HC'|]. constructor; [|constructor]. cbn in Cl. rewrite P1, (proj2 (Z.eqb_neq x l0)); [exact Cl|]. apply InA. left; reflexivity.
  - cbn [q_nd]. rewrite P1, Z.eqb_refl. reflexivity.
  - exact Hlq.
  - reflexivity.
  - intros x Hx. cbn [q_nd]. assert (x <> l0) by (intros ->; contradiction). rewrite P1, P2, (proj2 (Z.eqb_neq x l0)) by auto. auto.
Qed.

Lemma dequeue_ok s q1 l q2 f : shape s (q1 ++ l :: q2) f -> active (q_nd s) (q1 ++ l :: q2) ->
  shape (dequeue l s) (q1 ++ q2) (l :: f) /\ active (q_nd (dequeue l s)) (q1 ++ q2) /\ q_lock (dequeue l s) = q_lock s /\
  (forall x, q_class (q_nd (dequeue l s) x) = q_class (q_nd s x) /\ q_waiting (q_nd (dequeue l s) x) = q_waiting (q_nd s x)).
Proof.
  intros Sh Ac. pose proof Sh as (N&D&T&_). pose proof D as D0. apply dseg_app in D0 as [_ D2]. cbn [dseg hd] in D2. destruct D2 as (Hl&Ep&En&D2).
  assert (Pl : l <> q_prev (q_nd s l)).
  { rewrite Ep. destruct q1 as [|y q1]; [cbn; auto|]. intros X. rewrite <- app_assoc in N. apply NoDup_remove_2 in N. apply N. apply in_or_app. left.
    rewrite X at 1. apply last_in. discriminate. }
  assert (Pn : l <> q_next (q_nd s l)).
  { rewrite En. destruct q2 as [|y q2]; [cbn; auto|]. cbn [hd]. intros X. rewrite <- app_assoc in N. apply NoDup_remove_2 in N. apply N. apply in_or_app. right. left. auto. }
  assert (Tl : q_next (q_nd s l) = 0 -> q_tail s = l).
  { intros X. rewrite T, last_app', last_cons. destruct q2 as [|y q2]; [reflexivity|]. rewrite En in X. cbn in X. exfalso. revert X. eapply dseg_nz; [exact D2|left; reflexivity]. }
  assert (W : forall x, q_class (q_nd (dequeue l s) x) = q_class (q_nd s x) /\ q_waiting (q_nd (dequeue l s) x) = q_waiting (q_nd s x)).
  { intros x. unfold dequeue. destruct (negb (q_prev (q_nd s l) =? 0)), (negb (q_next (q_nd s l) =? 0)); cbn [q_nd with_nd with_tail free_lock q_tail];
    try destruct (_ =? l); cbn [q_nd with_nd with_tail free_lock q_tail]; autorewrite with lk; auto. }
  split; [|split; [|split]].
  - eapply (shape_remove s (dequeue l s) q1 l q2 f Sh); unfold dequeue; try intros x;
    destruct (Z.eqb_spec (q_prev (q_nd s l)) 0) as [E1|E1], (Z.eqb_spec (q_next (q_nd s l)) 0) as [E2|E2]; cbn [negb andb q_nd with_nd with_tail free_lock q_tail q_free];
    rewrite ?(Tl E2), ?Z.eqb_refl; cbn [negb andb q_nd with_nd with_tail free_lock q_tail q_free]; autorewrite with lk; rewrite ?(proj2 (Z.eqb_neq _ _) Pl); try reflexivity.
  - eapply active_ext; [|eapply active_remove; exact Ac]. intros x _. destruct (W x). auto.
  - unfold dequeue. destruct (negb (q_prev (q_nd s l) =? 0)), (negb (q_next (q_nd s l) =? 0)); cbn [q_nd with_nd with_tail free_lock q_tail q_lock];
    try destruct (_ =? l); reflexivity.
  - exact W.
Qed.

Lemma mid_facts s q1 l q2 f : shape s (q1 ++ l :: q2) f ->
  l <> 0 /\ q_prev (q_nd s l) = last q1 0 /\ q_next (q_nd s l) = hd 0 q2 /\ l <> q_prev (q_nd s l) /\ l <> q_next (q_nd s l) /\
  (q_next (q_nd s l) = 0 -> q_tail s = l /\ q2 = []) /\ NoDup (q1 ++ q2) /\ (forall x, In x q2 -> x <> 0) /\ (forall x, In x q1 -> x <> 0) /\ ~ In l (q1 ++ q2).
Proof.
  intros Sh. pose proof Sh as (N&D&T&_). pose proof D as D0. apply dseg_app in D0 as [D1 D2]. cbn [dseg hd] in D1, D2. destruct D2 as (Hl&Ep&En&D2).
  rewrite <- app_assoc in N. pose proof (NoDup_remove_2 _ _ _ N) as N2.
  split; [exact Hl|]. split; [exact Ep|]. split; [exact En|]. split.
  { rewrite Ep. destruct q1 as [|y q1]; [cbn; auto|]. intros X. apply N2. apply in_or_app. left. rewrite X at 1. apply last_in. discriminate. }
  split. { rewrite En. destruct q2 as [|y q2]; [cbn; auto|]. cbn [hd]. intros X. apply N2. apply in_or_app. right. left. auto. }
  split. { intros X. rewrite T, last_app', last_cons. destruct q2 as [|y q2]; [auto|]. rewrite En in X. cbn in X. exfalso. revert X. eapply dseg_nz; [exact D2|left; reflexivity]. }
  split. { apply NoDup_remove_1 in N. rewrite app_assoc in N. clear - N. induction (q1 ++ q2) as [|x r IH]; [constructor|]. inversion N; subst. constructor; auto. intros X. apply H1. apply in_or_app; auto. }
  split. { intros x Hx. first [exact (dseg_nz _ _ _ _ _ D2 Hx)|exact (dseg_nz _ _ _ _ _ D1 Hx)]. }
  split. { intros x Hx. first [exact (dseg_nz _ _ _ _ _ D2 Hx)|exact (dseg_nz _ _ _ _ _ D1 Hx)]. }
  intros X. apply N2. rewrite app_assoc. apply in_or_app; auto.
Qed.
Lemma active_mid nd q1 l q2 : active nd (q1 ++ l :: q2) -> q_waiting (nd l) = 0 ->
  exists A2 B, q2 = A2 ++ B /\ Forall (fun x => q_waiting (nd x) = 0) (q1 ++ l :: A2) /\ Forall (fun x => q_waiting (nd x) = 1) B /\
    (Forall (fun x => q_class (nd x) = lq_read) (q1 ++ l :: A2) \/ (q1 = [] /\ A2 = [])) /\
    (q_class (nd l) = lq_read -> Forall (fun x => q_class (nd x) = lq_read) (q1 ++ l :: A2)) /\
    (q_class (nd l) <> lq_read -> q1 = [] /\ A2 = []).
Proof.
  intros (A&B&E&HA&HB&HC) W. destruct (split_mid _ _ _ _ _ E) as [(A2&->&->)|(B1&->&->)].
  - exists A2, B. split; [reflexivity|]. split; [exact HA|]. split; [exact HB|].
    assert (X : Forall (fun x => q_class (nd x) = lq_read) (q1 ++ l :: A2) \/ (q1 = [] /\ A2 = [])).
    { destruct HC as [HC|[x HC]]; [left; exact HC|right]. destruct q1 as [|y [|z q1]]; cbn in HC; try discriminate. injection HC as _ ->. auto. }
    split; [exact X|]. split.
    + intros C. destruct X as [X|[-> ->]]; [exact X|]. constructor; auto.
    + intros C. destruct X as [X|X]; [|exact X]. exfalso. apply C. rewrite Forall_forall in X. apply X. apply in_or_app. right. left. reflexivity.
  - exfalso. rewrite Forall_forall in HB. rewrite (HB l) in W; [discriminate|]. apply in_or_app. right. left. reflexivity.
Qed.
Lemma Forall_mid {X} (P : X -> Prop) a x b : Forall P (a ++ x :: b) <-> Forall P a /\ P x /\ Forall P b.
Proof. rewrite Forall_app. split; [intros [A B]; inversion B; subst; auto|intros (A&B&C); split; auto]. Qed.
Lemma Forall_ext_in {X} (P Q : X -> Prop) a : (forall x, In x a -> P x -> Q x) -> Forall P a -> Forall Q a.
Proof. rewrite !Forall_forall. auto. Qed.

Definition same_or_granted (s s' : qshared) (q : list Z) : Prop :=
  q_lock s' = q_lock s /\ (forall x, q_class (q_nd s' x) = q_class (q_nd s x)) /\
  (forall x, In x q -> q_waiting (q_nd s' x) = q_waiting (q_nd s x) \/ q_waiting (q_nd s' x) = 0).

Lemma release_w_ok s q1 l q2 f a s' : shape s (q1 ++ l :: q2) f -> active (q_nd s) (q1 ++ l :: q2) ->
  q_waiting (q_nd s l) = 0 -> q_class (q_nd s l) = lq_write -> release_w l s = (a, s') ->
  shape s' (q1 ++ q2) (l :: f) /\ active (q_nd s') (q1 ++ q2) /\ same_or_granted s s' (q1 ++ q2).
Proof.
  intros Sh Ac W C E. destruct (mid_facts _ _ _ _ _ Sh) as (Hl&Ep&En&Pl&Pn&Tl&N&Z2&Z1&Nl).
  destruct (active_mid _ _ _ _ Ac W) as (A2&B&->&HA&HB&_&_&X). destruct X as [-> ->]; [rewrite C; discriminate|]. cbn [List.app last] in *.
  unfold release_w in E. destruct (Z.eqb_spec (q_next (q_nd s l)) 0) as [E0|E0]; cbn [negb] in E.
  - destruct (Tl E0) as [T ->]. rewrite T, Z.eqb_refl in E. injection E as <- <-. cbn [hd] in En. split; [|split].
    + eapply (shape_remove s _ [] l [] f Sh); try intros x; cbn [q_nd q_tail q_free free_lock with_tail]; autorewrite with lk; rewrite ?Ep, ?En; reflexivity.
    + exists [], []. split; [reflexivity|]. split; [constructor|]. split; [constructor|]. left; constructor.
    + split; [reflexivity|]. split; [intros x; cbn [q_nd free_lock with_tail]; autorewrite with lk; reflexivity|]. intros x [].
  - injection E as <- <-. destruct B as [|n B]; [cbn in En; congruence|]. cbn [hd] in En. rewrite En in *.
    assert (Nn : ~ In n B) by (inversion N; auto).
    split; [|split].
    + eapply (shape_remove s _ [] l (n :: B) f Sh); try intros x; cbn [q_nd q_tail q_free free_lock with_tail with_nd]; autorewrite with lk; rewrite ?Ep, ?En; cbn [Z.eqb negb andb]; try reflexivity.
      * rewrite (proj2 (Z.eqb_neq n 0)) by auto. reflexivity.
      * rewrite (proj2 (Z.eqb_neq n 0)) by auto. reflexivity.
    + exists [n], B. split; [reflexivity|]. cbn [q_nd free_lock with_nd]. pose proof (Forall_inv_tail HB) as HBt. split; [constructor; [|constructor]|split; [|right; eauto]].
      * autorewrite with lk. rewrite Z.eqb_refl. reflexivity.
      * eapply Forall_ext_in; [|exact HBt]. cbn. intros x Hx Hw. autorewrite with lk. destruct (Z.eqb_spec x n) as [->|]; [contradiction|exact Hw].
    + split; [reflexivity|]. cbn [q_nd free_lock with_nd]. split; [intros x; autorewrite with lk; reflexivity|]. intros x _. autorewrite with lk. destruct (x =? n); auto.
Qed.

Lemma release_r_ok s q1 l q2 f a s' : shape s (q1 ++ l :: q2) f -> active (q_nd s) (q1 ++ l :: q2) ->
  q_waiting (q_nd s l) = 0 -> q_class (q_nd s l) = lq_read -> release_r l s = (a, s') ->
  shape s' (q1 ++ q2) (l :: f) /\ active (q_nd s') (q1 ++ q2) /\ same_or_granted s s' (q1 ++ q2).
Proof.
  intros Sh Ac W C E. destruct (mid_facts _ _ _ _ _ Sh) as (Hl&Ep&En&Pl&Pn&Tl&N&Z2&Z1&Nl).
  unfold release_r in E. cbv zeta in E.
  set (s1 := if negb (q_prev (q_nd s l) =? 0) then with_nd s (set_next (q_nd s) (q_prev (q_nd s l)) (q_next (q_nd s l))) else s) in E.
  assert (S1 : q_tail s1 = q_tail s /\ q_lock s1 = q_lock s /\ q_free s1 = q_free s /\
    (forall x, q_class (q_nd s1 x) = q_class (q_nd s x)) /\ (forall x, q_waiting (q_nd s1 x) = q_waiting (q_nd s x)) /\
    (forall x, q_prev (q_nd s1 x) = q_prev (q_nd s x)) /\ (forall x, q_cell (q_nd s1 x) = q_cell (q_nd s x)) /\
    (forall x, q_next (q_nd s1 x) = if negb (q_prev (q_nd s l) =? 0) && (x =? q_prev (q_nd s l)) then q_next (q_nd s l) else q_next (q_nd s x))).
  { unfold s1. destruct (negb _); cbn [q_nd q_tail q_lock q_free with_nd andb]; repeat split; intros; autorewrite with lk; reflexivity. }
  clearbody s1. destruct S1 as (St&Sk&Sf&Sc&Sw&Sp&Sce&Sn).
  destruct (active_mid _ _ _ _ Ac W) as (A2&B&->&HA&HB&_&HR&_). specialize (HR C). apply Forall_mid in HA as (HA1&_&HA2). apply Forall_mid in HR as (HR1&_&HR2).
  destruct (Z.eqb_spec (q_next (q_nd s l)) 0) as [E0|E0]; cbn [negb] in E.
  - destruct (Tl E0) as [T Eq]. apply app_eq_nil in Eq as [-> ->]. rewrite St, T, Z.eqb_refl in E. injection E as <- <-. cbn [hd List.app] in *. split; [|split].
    + eapply (shape_remove s _ q1 l [] f Sh); try intros x; cbn [q_nd q_tail q_free free_lock with_tail]; autorewrite with lk; rewrite ?E0, ?Sn, ?Sp, ?Sce, ?Sf, ?E0; reflexivity.
    + rewrite app_nil_r. exists q1, []. rewrite app_nil_r. split; [reflexivity|]. cbn [q_nd free_lock with_tail]. split; [|split; [constructor|left]].
      * eapply Forall_ext_in; [|exact HA1]. cbn. intros x _ Hx. autorewrite with lk. rewrite Sw. exact Hx.
      * eapply Forall_ext_in; [|exact HR1]. cbn. intros x _ Hx. autorewrite with lk. rewrite Sc. exact Hx.
    + split; [exact Sk|]. cbn [q_nd free_lock with_tail]. split; [intros x; autorewrite with lk; apply Sc|]. intros x _. autorewrite with lk. rewrite Sw. auto.
  - set (n := q_next (q_nd s l)) in *. cbn [q_nd with_nd q_tail] in E. autorewrite with lk in E.
    set (gr := negb (q_waiting (q_nd s1 n) =? 0) && ((q_prev (q_nd s l) =? 0) || (q_class (q_nd s1 n) =? lq_read))) in E.
    assert (E' : s' = free_lock (with_nd s1 (if gr then set_waiting (set_prev (q_nd s1) n (q_prev (q_nd s l))) n 0 else set_prev (q_nd s1) n (q_prev (q_nd s l)))) l).
    { destruct gr; injection E as <- <-; reflexivity. }
    clear E.
    assert (Cl : forall x, q_class (q_nd s' x) = q_class (q_nd s x)).
    { intros x. rewrite E'. cbn [q_nd free_lock with_nd]. destruct gr; autorewrite with lk; apply Sc. }
    assert (Wa : forall x, q_waiting (q_nd s' x) = if gr && (x =? n) then 0 else q_waiting (q_nd s x)).
    { intros x. rewrite E'. cbn [q_nd free_lock with_nd]. destruct gr; autorewrite with lk; cbn [andb]; rewrite ?Sw; reflexivity. }
    split; [|split].
    + clear Cl Wa. subst s'. eapply (shape_remove s _ q1 l (A2 ++ B) f Sh); try intros x; cbn [q_nd q_tail q_free free_lock with_nd].
      * destruct gr; autorewrite with lk; rewrite Sn; reflexivity.
      * fold n. rewrite (proj2 (Z.eqb_neq n 0) E0). cbn [negb andb]. destruct gr; autorewrite with lk; rewrite Sp; reflexivity.
      * destruct gr; autorewrite with lk; rewrite Sf, ?Sce; reflexivity.
      * reflexivity.
      * fold n. rewrite (proj2 (Z.eqb_neq n 0) E0). exact St.
    + destruct gr eqn:G.
      * unfold gr in G. rewrite Sw, Sc in G. apply andb_prop in G as [G1 G2]. apply negb_true_iff, Z.eqb_neq in G1.
        destruct A2 as [|y A2]; [|exfalso; apply G1; inversion HA2; subst; cbn in En; rewrite En; assumption].
        destruct B as [|b B]; [cbn in En; congruence|]. cbn [List.app hd] in *. subst b. pose proof (Forall_inv_tail HB) as HBt.
        assert (Nn : ~ In n B /\ ~ In n q1).
        { apply NoDup_remove_2 in N. split; intros X; apply N; apply in_or_app; auto. }
        exists (q1 ++ [n]), B. rewrite <- app_assoc. split; [reflexivity|]. rewrite !Forall_app. split; [split|split].
        -- eapply Forall_ext_in; [|exact HA1]. cbn. intros x Hx Hw. rewrite Wa. cbn [andb]. destruct (x =? n); auto.
        -- constructor; [|constructor]. rewrite Wa, Z.eqb_refl. reflexivity.
        -- eapply Forall_ext_in; [|exact HBt]. cbn. intros x Hx Hw. rewrite Wa. destruct (Z.eqb_spec x n) as [->|]; [tauto|]. rewrite andb_false_r. exact Hw.
        -- apply orb_prop in G2 as [G2|G2]; apply Z.eqb_eq in G2.
           ++ right. exists n. destruct q1 as [|y q1]; [reflexivity|]. exfalso. rewrite Ep in G2. eapply Z1; [|exact G2]. apply last_in. discriminate.
           ++ left. rewrite ?Forall_app. split; [|constructor; [rewrite Cl; exact G2|constructor]]. eapply Forall_ext_in; [|exact HR1]. cbn. intros x _ Hc. rewrite Cl. exact Hc.
      * exists (q1 ++ A2), B. rewrite app_assoc. split; [reflexivity|]. rewrite !Forall_app. split; [split|split].
        -- eapply Forall_ext_in; [|exact HA1]. cbn. intros x Hx Hw. rewrite Wa. exact Hw.
        -- eapply Forall_ext_in; [|exact HA2]. cbn. intros x Hx Hw. rewrite Wa. exact Hw.
        -- eapply Forall_ext_in; [|exact HB]. cbn. intros x Hx Hw. rewrite Wa. exact Hw.
        -- left. rewrite ?Forall_app. split; (eapply Forall_ext_in; [|eassumption]); cbn; intros x _ Hc; rewrite Cl; exact Hc.
    + split; [subst s'; exact Sk|]. split; [exact Cl|]. intros x _. rewrite Wa. destruct (gr && (x =? n)); auto.
Qed.

Lemma chain_ok s q1 l q2 f a s' : shape s (q1 ++ l :: q2) f -> active (q_nd s) (q1 ++ l :: q2) ->
  q_waiting (q_nd s l) = 0 -> q_class (q_nd s l) = lq_read -> chain l s = (a, s') ->
  shape s' (q1 ++ l :: q2) f /\ active (q_nd s') (q1 ++ l :: q2) /\ same_or_granted s s' (q1 ++ l :: q2).
Proof.
  intros Sh Ac W C E. destruct (mid_facts _ _ _ _ _ Sh) as (Hl&Ep&En&Pl&Pn&Tl&N&Z2&Z1&Nl). unfold chain in E.
  destruct (_ && _) eqn:G in E; injection E as <- <-; [|split; [exact Sh|]; split; [exact Ac|]; repeat split; auto].
  apply andb_prop in G as [G G3]. apply andb_prop in G as [G1 G2]. apply negb_true_iff, Z.eqb_neq in G1, G3. apply Z.eqb_eq in G2.
  set (n := q_next (q_nd s l)) in *. split; [|split].
  - destruct Sh as (N0&D&T&F). split; [exact N0|]. cbn [q_nd with_nd q_tail q_free]. split; [|split; [exact T|]].
    + eapply dseg_ext; [|exact D]. intros x _. autorewrite with lk. auto.
    + eapply flist_ext; [|exact F]. intros x _. autorewrite with lk. auto.
  - destruct (active_mid _ _ _ _ Ac W) as (A2&B&->&HA&HB&_&HR&_). specialize (HR C). apply Forall_mid in HA as (HA1&_&HA2). apply Forall_mid in HR as (HR1&_&HR2).
    destruct A2 as [|y A2]; [|exfalso; apply G3; inversion HA2; subst; cbn in En; rewrite En; assumption].
    destruct B as [|b B]; [cbn in En; congruence|]. cbn [List.app hd] in *. subst b. pose proof (Forall_inv_tail HB) as HBt.
    assert (Nn : ~ In n B /\ ~ In n q1).
    { apply NoDup_remove_2 in N. split; intros X; apply N; apply in_or_app; auto. }
    exists (q1 ++ [l; n]), B. rewrite <- app_assoc. split; [reflexivity|]. cbn [q_nd with_nd]. rewrite !Forall_app. split; [split|split].
    + eapply Forall_ext_in; [|exact HA1]. cbn. intros x Hx Hw. autorewrite with lk. destruct (x =? n); auto.
    + constructor; [|constructor; [|constructor]]; autorewrite with lk; [destruct (l =? n); auto|rewrite Z.eqb_refl; reflexivity].
    + eapply Forall_ext_in; [|exact HBt]. cbn. intros x Hx Hw. autorewrite with lk. destruct (Z.eqb_spec x n) as [->|]; [tauto|exact Hw].
    + left. rewrite ?Forall_app. split; [|constructor; [|constructor; [|constructor]]; autorewrite with lk; auto].
      eapply Forall_ext_in; [|exact HR1]. cbn. intros x _ Hc. autorewrite with lk. exact Hc.
  - split; [reflexivity|]. cbn [q_nd with_nd]. split; [intros x; autorewrite with lk; reflexivity|]. intros x _. autorewrite with lk. destruct (x =? n); auto.
Qed.

(** ** Processes *)
Definition info (p : tpc) : option (Z * Z * bool) :=
  match p with
  | TOut k l | TTest k l | TWait k l | TSleep k l | TGiveUp k l | TGiveUpIn k l => Some (k, l, false)
  | THold k l | TRel k l | TRelIn k l => Some (k, l, true)
  | TWoken l | TChainIn l | TChainOut l _ | TChainWake l _ => Some (lq_read, l, true)
  | _ => None
  end.
Definition asks (p : tpc) : option Z := match p with TEnter k | TIn k => Some k | _ => None end.
Definition kind (k : Z) : Prop := k = lq_read \/ k = lq_write.
Definition pc_ok (s : qshared) (q : list Z) (p : tpc) : Prop :=
  match info p with
  | Some (k, l, g) => kind k /\ In l q /\ q_class (q_nd s l) = k /\ (g = true -> q_waiting (q_nd s l) = 0)
  | None => match asks p with Some k => kind k | None => True end
  end.
Definition node (p : tpc) : option Z := match info p with Some (_, l, _) => Some l | None => None end.
Definition apart (ps : list tpc) : Prop := forall i j p p' l, i <> j -> nth_error ps i = Some p -> nth_error ps j = Some p' ->
  node p = Some l -> node p' = Some l -> False.
Definition owned (q : list Z) (ps : list tpc) : Prop := forall l, In l q -> exists i p, nth_error ps i = Some p /\ node p = Some l.
Definition tq_inv (cells : nat) (c : qshared * list tpc) : Prop :=
  let (s, ps) := c in
  (exists q f, shape s q f /\ active (q_nd s) q /\ (forall i p, nth_error ps i = Some p -> pc_ok s q p) /\ owned q ps /\ (length q + length f = cells)%nat) /\
  apart ps /\ q_lock s = cnt in_section ps /\ cnt in_section ps <= 1.

Lemma pc_ok_move s s' q q' p : pc_ok s q p ->
  (forall l, node p = Some l -> In l q -> In l q' /\ q_class (q_nd s' l) = q_class (q_nd s l) /\
     (q_waiting (q_nd s' l) = q_waiting (q_nd s l) \/ q_waiting (q_nd s' l) = 0)) -> pc_ok s' q' p.
Proof.
  unfold pc_ok, node. destruct (info p) as [[[k l] g]|]; [|auto]. intros (A&B&C&D) H. destruct (H l eq_refl B) as (E&F&G).
  split; [exact A|]. split; [exact E|]. split; [congruence|]. intros X. specialize (D X). destruct G; congruence.
Qed.
Lemma apart_set ps i p p' : apart ps -> nth_error ps i = Some p -> (forall l, node p' = Some l -> node p = Some l) -> apart (set_nth i p' ps).
Proof.
  intros A Hi H a b x y l Hab Ha Hb Hx Hy.
  destruct (set_nth_cases p' ps i a x p Hi Ha) as [[-> ->]|[Na Ha']], (set_nth_cases p' ps i b y p Hi Hb) as [[-> ->]|[Nb Hb']].
  - congruence.
  - eapply (A i b p y l); eauto.
  - eapply (A a i x p l); eauto.
  - eapply (A a b x y l); eauto.
Qed.
Lemma active_01 nd q l : active nd q -> In l q -> q_waiting (nd l) = 0 \/ q_waiting (nd l) = 1.
Proof. intros (A&B&->&HA&HB&_) H. rewrite Forall_forall in *. apply in_app_or in H as [H|H]; auto. Qed.

Lemma owned_set q ps i p p' : owned q ps -> nth_error ps i = Some p -> node p' = node p -> owned q (set_nth i p' ps).
Proof.
  intros Ow Hi Hn l Hl. destruct (Ow l Hl) as (j&x&Hj&Hx). destruct (Nat.eq_dec j i) as [->|N].
  - exists i, p'. split; [eapply set_nth_same; eauto|]. congruence.
  - exists j, x. rewrite set_nth_other by auto. auto.
Qed.
(** Steps that leave the queue alone. *)
Lemma quiet cells s s' ps i p p' : tq_inv cells (s, ps) -> nth_error ps i = Some p ->
  q_nd s' = q_nd s -> q_tail s' = q_tail s -> q_free s' = q_free s ->
  (forall q, active (q_nd s) q -> pc_ok s q p -> pc_ok s q p') -> node p' = node p ->
  q_lock s' - q_lock s = b2z (in_section p') - b2z (in_section p) ->
  (in_section p' = true -> in_section p = true \/ q_lock s = 0) ->
  tq_inv cells (s', set_nth i p' ps).
Proof.
  intros ((q&f&Sh&Ac&Ok&Ow&Len)&Ap&Lk&L1) Hi E1 E2 E3 Hok Hn Hl Hin. split; [|split; [|split]].
  - exists q, f. unfold shape in *. rewrite E1, E2, E3. split; [exact Sh|]. split; [exact Ac|]. split; [|split; [eapply owned_set; eauto|exact Len]]. intros j x Hj.
    assert (X : pc_ok s q x) by (destruct (set_nth_cases p' ps i j x p Hi Hj) as [[-> ->]|[_ Hj']]; [apply Hok; eauto|eauto]).
    unfold pc_ok in *. rewrite E1. exact X.
  - eapply apart_set; eauto. rewrite Hn. auto.
  - rewrite (cnt_set _ p p' ps i Hi). lia.
  - rewrite (cnt_set _ p p' ps i Hi). destruct (in_section p') eqn:I1; cbn [b2z] in *; [|destruct (in_section p); cbn [b2z]; lia].
    destruct (Hin eq_refl) as [I2|I2]; [rewrite I2; cbn [b2z]; lia|]. destruct (in_section p); cbn [b2z] in *; lia.
Qed.

(** The sections. *)
Lemma section cells s s' ps i p p' q q' f' : tq_inv cells (s, ps) -> nth_error ps i = Some p ->
  in_section p = true -> in_section p' = true -> q_lock s' = q_lock s ->
  shape s' q' f' -> active (q_nd s') q' -> pc_ok s' q' p' ->
  (forall j x, j <> i -> nth_error ps j = Some x -> pc_ok s q x) ->
  (forall l, In l q -> node p <> Some l -> In l q' /\ q_class (q_nd s' l) = q_class (q_nd s l) /\
     (q_waiting (q_nd s' l) = q_waiting (q_nd s l) \/ q_waiting (q_nd s' l) = 0)) ->
  (forall l, node p' = Some l -> node p = Some l \/ ~ In l q) ->
  (forall l, In l q' -> node p' = Some l \/ In l q /\ node p <> Some l) -> owned q ps -> (length q' + length f' = cells)%nat ->
  tq_inv cells (s', set_nth i p' ps).
Proof.
  intros ((q0&f0&Sh0&Ac0&Ok0&_)&Ap&Lk&L1) Hi I1 I2 El Sh Ac Hok Ok Hmv Hn Ho Ow Len. split; [|split; [|split]].
  - exists q', f'. split; [exact Sh|]. split; [exact Ac|]. split; [|split; [|exact Len]].
    2:{ intros l Hl. destruct (Ho l Hl) as [X|[X Y]]; [exists i, p'; split; [eapply set_nth_same; eauto|exact X]|].
        destruct (Ow l X) as (j&x&Hj&Hx). exists j, x. split; [|exact Hx]. rewrite set_nth_other; [exact Hj|]. intros ->. congruence. }
    intros j x Hj.
    destruct (set_nth_cases p' ps i j x p Hi Hj) as [[-> ->]|[Nj Hj']]; [exact Hok|].
    eapply pc_ok_move; [apply (Ok j x Nj Hj')|]. intros l Hl Hin. apply Hmv; [exact Hin|]. intros X. exact (Ap i j p x l (fun e => Nj (eq_sym e)) Hi Hj' X Hl).
  - intros a b x y l Hab Ha Hb Hx Hy.
    destruct (set_nth_cases p' ps i a x p Hi Ha) as [[-> ->]|[Na Ha']], (set_nth_cases p' ps i b y p Hi Hb) as [[-> ->]|[Nb Hb']].
    + congruence.
    + destruct (Hn l Hx) as [X|X]; [exact (Ap i b p y l Hab Hi Hb' X Hy)|]. apply X. specialize (Ok b y Nb Hb'). unfold pc_ok, node in *.
      destruct (info y) as [[[? ?] ?]|]; [|discriminate]. injection Hy as ->. tauto.
    + destruct (Hn l Hy) as [X|X]; [exact (Ap a i x p l Hab Ha' Hi Hx X)|]. apply X. specialize (Ok a x Na Ha'). unfold pc_ok, node in *.
      destruct (info x) as [[[? ?] ?]|]; [|discriminate]. injection Hx as ->. tauto.
    + exact (Ap a b x y l Hab Ha' Hb' Hx Hy).
  - rewrite (cnt_set _ p p' ps i Hi), I1, I2. lia.
  - rewrite (cnt_set _ p p' ps i Hi), I1, I2. lia.
Qed.

Lemma in_rest (q1 : list Z) l q2 x : In x (q1 ++ l :: q2) -> x <> l -> In x (q1 ++ q2).
Proof. intros H N. apply in_app_or in H as [H|[H|H]]; apply in_or_app; auto. congruence. Qed.

Lemma tq_inv_step cells c c' : tq_inv cells c -> tq false false c c' -> tq_inv cells c'.
Proof.
  intros Iv St. destruct St as [s ps i p s' p' Hi St _|s ps i p p' a j k Hi Wk Hj Hw].
  - pose proof Iv as ((q&f&Sh&Ac&Ok&Ow&Len)&Ap&Lk&L1). pose proof (Ok i p Hi) as Pk.
    assert (Lk0 : 0 <= q_lock s <= 1) by (pose proof (cnt_nonneg in_section ps); lia).
    assert (In1 : in_section p = true -> q_lock s = 1) by (intros X; pose proof (cnt_pos in_section ps i p Hi X); lia).
    destruct St; try discriminate;
    try (eapply (quiet cells _ _ ps i _ _ Iv Hi);
         [reflexivity|reflexivity|reflexivity|
          intros ? Aq X; unfold pc_ok in *; cbn [info asks] in *; try tauto; try (unfold kind; tauto)|
          cbn [node info]; try congruence; try tauto|
          cbn [in_section b2z with_lock q_lock]; try rewrite (In1 eq_refl); try lia|
          cbn [in_section]; auto; try discriminate]; fail).
    + (* enqueue *)
      destruct (enqueue_ok _ _ _ _ _ _ Sh Ac H) as (f'&->&Sh'&Ac'&Cl&Nq&El&Mv). cbn [pc_ok info asks] in Pk.
      eapply (section cells s s' ps i _ _ q (q ++ [l]) f' Iv Hi); try reflexivity; try assumption.
      * unfold pc_ok. cbn [info]. split; [exact Pk|]. split; [apply in_or_app; right; left; reflexivity|]. split; [exact Cl|discriminate].
      * intros j x _ Hx. apply (Ok j x Hx).
      * intros x Hx _. destruct (Mv x Hx) as [-> ->]. split; [apply in_or_app; auto|auto].
      * intros x Hx. cbn [node info] in Hx. injection Hx as <-. auto.
      * intros x Hx. apply in_app_or in Hx as [Hx|[<-|[]]]; [right; split; [exact Hx|discriminate]|left; reflexivity].
      * rewrite app_length. cbn [length] in *. lia.
    + (* EAGAIN *)
      destruct Pk as (K&Hin&Cl&_).
      eapply (quiet cells s s ps i _ _ Iv Hi); try reflexivity.
      * intros q0 Aq X. unfold pc_ok in X. cbn [info] in X. destruct X as (X1&X2&X3&_). unfold after_wait, pc_ok.
        destruct (active_01 _ _ l Aq X2) as [W|W]; [|congruence].
        destruct (Z.eqb_spec k lq_read) as [->|]; cbn [info]; auto.
      * unfold after_wait. destruct (Z.eqb_spec k lq_read); reflexivity.
      * unfold after_wait. destruct (Z.eqb_spec k lq_read); cbn; lia.
      * unfold after_wait. destruct (Z.eqb_spec k lq_read); cbn; discriminate.
    + (* dequeue *)
      destruct Pk as (K&Hin&Cl&_). apply in_split in Hin as (q1&q2&->).
      destruct (dequeue_ok _ _ _ _ _ Sh Ac) as (Sh'&Ac'&El&Mv).
      eapply (section cells s _ ps i _ _ (q1 ++ l :: q2) _ _ Iv Hi); try reflexivity; try eassumption.
      * intros j x _ Hx. apply (Ok j x Hx).
      * intros x Hx Nx. destruct (Mv x) as [-> ->]. split; [|auto]. eapply in_rest; [exact Hx|]. intros ->. apply Nx. reflexivity.
      * discriminate.
      * intros x Hx. right. split; [apply in_or_app; apply in_app_or in Hx as [Hx|Hx]; auto; right; right; exact Hx|]. cbn. intros X. injection X as <-. destruct Sh as (N&_). rewrite <- app_assoc in N. apply NoDup_remove_2 in N. apply N. rewrite app_assoc. apply in_or_app. auto.
      * rewrite app_length in *. cbn [length] in *. lia.
    + (* chain *)
      destruct Pk as (K&Hin&Cl&Wt). apply in_split in Hin as (q1&q2&->).
      destruct (chain_ok _ _ _ _ _ _ _ Sh Ac (Wt eq_refl) Cl H) as (Sh'&Ac'&El&Mc&Mw).
      eapply (section cells s _ ps i _ _ (q1 ++ l :: q2) _ _ Iv Hi); try reflexivity; try eassumption.
      * unfold pc_ok. cbn [info]. split; [exact K|]. split; [apply in_or_app; right; left; reflexivity|]. rewrite Mc. split; [exact Cl|]. intros _.
        destruct (Mw l) as [X|X]; [apply in_or_app; right; left; reflexivity| |]; rewrite X; auto.
      * intros j x _ Hx. apply (Ok j x Hx).
      * intros x Hx Nx. auto.
      * cbn [node info]. auto.
      * intros x Hx. cbn [node info]. destruct (Z.eq_dec l x) as [->|]; [auto|right; split; [exact Hx|congruence]].
    + (* release *)
      destruct Pk as (K&Hin&Cl&Wt). apply in_split in Hin as (q1&q2&->). cbn [info] in *.
      assert (X : shape s' (q1 ++ q2) (l :: f) /\ active (q_nd s') (q1 ++ q2) /\ same_or_granted s s' (q1 ++ q2)).
      { unfold release in H. destruct (Z.eqb_spec k lq_write) as [->|Nk].
        - eapply release_w_ok; eauto.
        - destruct K as [->|]; [|contradiction]. eapply release_r_ok; eauto. }
      destruct X as (Sh'&Ac'&El&Mc&Mw).
      eapply (section cells s _ ps i _ _ (q1 ++ l :: q2) _ _ Iv Hi); try reflexivity; try eassumption.
      * intros j x _ Hx. apply (Ok j x Hx).
      * intros x Hx Nx. assert (In x (q1 ++ q2)) by (eapply in_rest; [exact Hx|]; intros ->; apply Nx; reflexivity). auto.
      * discriminate.
      * intros x Hx. right. split; [apply in_or_app; apply in_app_or in Hx as [Hx|Hx]; auto; right; right; exact Hx|]. cbn. intros X. injection X as <-. destruct Sh as (N&_). rewrite <- app_assoc in N. apply NoDup_remove_2 in N. apply N. rewrite app_assoc. apply in_or_app. auto.
      * rewrite app_length in *. cbn [length] in *. lia.
  - destruct Hw as [Hw|Hw]; [discriminate|].
    assert (Hij : j <> i) by (intros ->; rewrite Hi in Hj; injection Hj as ->; inversion Wk).
    assert (Iv1 : tq_inv cells (s, set_nth i p' ps)).
    { eapply (quiet cells s s ps i p p' Iv Hi); try reflexivity; destruct Wk; try (intros ? ? X; unfold pc_ok in *; cbn [info asks] in *; tauto); cbn; try congruence; try tauto; try lia; discriminate. }
    assert (Hj1 : nth_error (set_nth i p' ps) j = Some (TSleep k a)) by (rewrite set_nth_other by auto; exact Hj).
    eapply (quiet cells s s _ j _ _ Iv1 Hj1); try reflexivity.
    + intros q0 Aq X. unfold pc_ok in X. cbn [info] in X. destruct X as (X1&X2&X3&_). unfold after_wait, pc_ok.
      destruct (Z.eqb_spec k lq_read) as [->|]; cbn [info]; auto.
    + unfold after_wait. destruct (Z.eqb_spec k lq_read); reflexivity.
    + unfold after_wait. destruct (Z.eqb_spec k lq_read); cbn; lia.
    + unfold after_wait. destruct (Z.eqb_spec k lq_read); cbn; discriminate.
Qed.

Lemma cells_flist nd : forall n base, 0 < base -> (0 < n)%nat ->
  exists f, flist (cells_from n 128 base nd) base f /\ length f = n /\ NoDup f /\ forall x, In x f -> base <= x.
Proof.
  induction n as [|n IH]; intros base Hb Hn; [lia|]. cbn [cells_from]. destruct n as [|n].
  - exists [base]. cbn [cells_from flist]. autorewrite with lk. rewrite Z.eqb_refl. split; [repeat split; lia|]. split; [reflexivity|]. split; [repeat constructor; intros []|]. intros x [<-|[]]. lia.
  - destruct (IH (base + 128) ltac:(lia) ltac:(lia)) as (f&F&Ln&N&B). exists (base :: f). split; [|split; [cbn; lia|split]].
    + cbn [flist]. rewrite f_cell_of_q_cell, Z.eqb_refl. split; [reflexivity|]. split; [lia|]. eapply flist_ext; [|exact F].
      intros x Hx. rewrite f_cell_of_q_cell. specialize (B x Hx). destruct (Z.eqb_spec x base); [lia|reflexivity].
    + constructor; [|exact N]. intros X. specialize (B _ X). lia.
    + intros x [<-|Hx]; [lia|]. specialize (B x Hx). lia.
Qed.
Lemma tq_inv_run n cells base nd c : 0 < base -> (0 < cells)%nat -> tq_run false false n cells base nd c -> tq_inv cells c.
Proof.
  intros Hb Hc R. unfold tq_run in R. apply clos_rt_rtn1 in R. induction R as [|c c' T R IH].
  - cbn [tq_inv]. assert (X : forall i p, nth_error (repeat TIdle n) i = Some p -> p = TIdle) by (intros i p H; apply nth_error_In in H; apply repeat_spec in H; exact H).
    split; [|split; [|split]].
    + destruct (cells_flist nd cells base Hb Hc) as (f&F&Ln&N&_). exists [], f. split; [|split; [|split; [|split; [intros l []|exact Ln]]]].
      * split; [exact N|]. split; [exact I|]. split; [reflexivity|exact F].
      * exists [], []. split; [reflexivity|]. split; [constructor|]. split; [constructor|]. left; constructor.
      * intros i p H. rewrite (X i p H). exact I.
    + intros i j p p' l _ H _ Hn. rewrite (X i p H) in Hn. discriminate.
    + cbn [q_lock init_locks]. rewrite cnt_repeat; reflexivity.
    + rewrite cnt_repeat; [lia|reflexivity].
  - eapply tq_inv_step; eauto.
Qed.
Lemma tq_exclusive n cells base nd s ps : 0 < base -> (0 < cells)%nat -> tq_run false false n cells base nd (s, ps) -> exclusive tq_writes tq_reads ps.
Proof.
  intros Hb Hc R. destruct (tq_inv_run _ _ _ _ _ Hb Hc R) as ((q&f&Sh&Ac&Ok&_)&Ap&_). intros i j p p' Hij Hi Hj Hp.
  destruct p as [| | | | | | | | | | | | | | |k l| | | |]; try discriminate. cbn [tq_writes] in Hp. apply Z.eqb_eq in Hp. subst k.
  assert (X : forall k' l', p' = THold k' l' -> False).
  { intros k' l' ->. pose proof (Ok i _ Hi) as (_&I1&C1&W1). pose proof (Ok j _ Hj) as (_&I2&C2&W2). specialize (W1 eq_refl). specialize (W2 eq_refl).
    apply in_split in I1 as (q1&q2&->). destruct (active_mid _ _ _ _ Ac W1) as (A2&B&->&_&HB&_&_&Y).
    destruct Y as [-> ->]; [rewrite C1; discriminate|]. cbn [List.app] in I2. destruct I2 as [I2|I2].
    - subst l'. exact (Ap i j _ _ l Hij Hi Hj eq_refl eq_refl).
    - rewrite Forall_forall in HB. rewrite (HB l' I2) in W2. discriminate. }
  destruct p'; cbn [tq_writes tq_reads]; try (split; reflexivity). exfalso. eapply X. reflexivity.
Qed.
Lemma tq_mutex n cells base nd s ps i j p p' : 0 < base -> (0 < cells)%nat -> tq_run false false n cells base nd (s, ps) ->
  nth_error ps i = Some p -> nth_error ps j = Some p' -> in_section p = true -> in_section p' = true -> i = j.
Proof.
  intros Hb Hc R Hi Hj H1 H2. destruct (tq_inv_run _ _ _ _ _ Hb Hc R) as (_&_&_&L). destruct (Nat.eq_dec i j) as [|N]; [assumption|].
  pose proof (cnt_two _ _ i j p p' N Hi Hj H1 H2). lia.
Qed.

(** When everybody is idle, the next request is served at once. *)
Lemma tq_idle n cells base nd s ps k : 0 < base -> (0 < cells)%nat -> tq_run false false n cells base nd (s, ps) -> Forall (eq TIdle) ps ->
  q_lock s = 0 /\ exists l s', enqueue k s = Some (l, s') /\ q_waiting (q_nd s' l) = 0.
Proof.
  intros Hb Hc R Hi. destruct (tq_inv_run _ _ _ _ _ Hb Hc R) as ((q&f&(_&_&T&F)&_&_&Ow&Len)&_&Lk&_). rewrite Forall_forall in Hi. split.
  - rewrite Lk. clear -Hi. induction ps as [|p ps IH]; [reflexivity|]. cbn [cnt]. rewrite <- (Hi p (or_introl eq_refl)). cbn. apply IH. intros x Hx. apply Hi. right; exact Hx.
  - destruct q as [|l q].
    2:{ destruct (Ow l (or_introl eq_refl)) as (i&p&Hp&Hn). apply nth_error_In in Hp. rewrite <- (Hi p Hp) in Hn. discriminate. }
    destruct f as [|l f]; [cbn in Len; lia|]. cbn [flist] in F. destruct F as (F&Fz&_). cbn [last] in T. unfold enqueue. rewrite F, T.
    destruct (Z.eqb_spec l 0); [contradiction|]. cbn [with_tail q_tail q_nd with_nd]. rewrite Z.eqb_refl. cbn [negb]. eexists l, _. split; [reflexivity|].
    cbn [q_nd with_nd]. autorewrite with lk. rewrite Z.eqb_refl. reflexivity.
Qed.

(** ** Executable steps, for concrete runs *)
Inductive mv := MCall (k : Z) | MStep | MTimeout | MSignal.
Definition mstep (m : mv) (s : qshared) (p : tpc) : option (qshared * tpc) :=
  let sect k := if q_lock s =? 0 then Some (with_lock s 1, k) else None in
  match m, p with
  | MCall k, TIdle => if (k =? lq_read) || (k =? lq_write) then Some (s, TEnter k) else None
  | MTimeout, TSleep k l => Some (s, TGiveUp k l)
  | MSignal, TSleep k l => Some (s, after_wait k l)
  | MStep, TEnter k => sect (TIn k)
  | MStep, TIn k => match enqueue k s with Some (l, s') => Some (s', TOut k l) | None => Some (s, TFail) end
  | MStep, TFail => Some (with_lock s 0, TIdle)
  | MStep, TOut k l => Some (with_lock s 0, TTest k l)
  | MStep, TTest k l => Some (s, if q_waiting (q_nd s l) =? 0 then THold k l else TWait k l)
  | MStep, TWait k l => Some (s, if q_waiting (q_nd s l) =? 1 then TSleep k l else after_wait k l)
  | MStep, TGiveUp k l => sect (TGiveUpIn k l)
  | MStep, TGiveUpIn k l => Some (dequeue l s, TGiveUpOut)
  | MStep, TGiveUpOut => Some (with_lock s 0, TIdle)
  | MStep, TWoken l => sect (TChainIn l)
  | MStep, TChainIn l => let (a, s') := chain l s in Some (s', TChainOut l a)
  | MStep, TChainOut l a => Some (with_lock s 0, TChainWake l a)
  | MStep, TChainWake l a => Some (s, THold lq_read l)
  | MStep, THold k l => Some (s, TRel k l)
  | MStep, TRel k l => sect (TRelIn k l)
  | MStep, TRelIn k l => let (a, s') := release k l s in Some (s', TRelOut a)
  | MStep, TRelOut a => Some (with_lock s 0, TRelWake a)
  | MStep, TRelWake a => Some (s, TIdle)
  | _, _ => None
  end.
Definition is_signal (m : mv) : bool := match m with MSignal => true | _ => false end.
Lemma mstep_ok b m s p s' p' : mstep m s p = Some (s', p') -> (is_signal m = true -> b = true) -> tq_step b s p s' p'.
Proof.
  intros E Hb. destruct m, p; cbn in E; try discriminate;
  repeat match type of E with
  | context [if q_lock s =? 0 then _ else _] => destruct (Z.eqb_spec (q_lock s) 0); [|discriminate]
  | context [enqueue ?k ?s] => let H := fresh in destruct (enqueue k s) as [[? ?]|] eqn:H
  | context [chain ?k ?s] => let H := fresh in destruct (chain k s) as [? ?] eqn:H
  | context [release ?k ?l ?s] => let H := fresh in destruct (release k l s) as [? ?] eqn:H
  end; try (inversion E; subst; constructor; auto; fail).
  - destruct (Z.eqb_spec k lq_read); cbn in E; [inversion E; subst; constructor|]. destruct (Z.eqb_spec k lq_write); inversion E; subst; constructor.
  - inversion E; subst. destruct (Z.eqb_spec (q_waiting (q_nd s' l)) 0); constructor; auto.
  - inversion E; subst. destruct (Z.eqb_spec (q_waiting (q_nd s' l)) 1); constructor; auto.
Qed.
Definition sleeps_at (a : Z) (p : tpc) : bool := match p with TSleep _ b => b =? a | _ => false end.
Definition target (p : tpc) : Z := match p with TChainWake _ a | TRelWake a => a | _ => 0 end.
Definition after_wake (p : tpc) : tpc := match p with TChainWake l _ => THold lq_read l | _ => TIdle end.
Inductive mv2 := M1 (i : nat) (m : mv) | M2 (i j : nat).
Definition go (c : qshared * list tpc) (m : mv2) : option (qshared * list tpc) :=
  let (s, ps) := c in
  match m with
  | M1 i m => match nth_error ps i with
      | Some p => match mstep m s p with
          | Some (s', p') => if negb (target p =? 0) && existsb (sleeps_at (target p)) ps then None else Some (s', set_nth i p' ps)
          | None => None end
      | None => None end
  | M2 i j => match nth_error ps i, nth_error ps j with
      | Some p, Some (TSleep k a) => if negb (target p =? 0) && (a =? target p) then Some (s, set_nth j (after_wait k a) (set_nth i (after_wake p) ps)) else None
      | _, _ => None end
  end.
Definition signals (m : mv2) : bool := match m with M1 _ m => is_signal m | _ => false end.
Definition late_wake (c : qshared * list tpc) (m : mv2) : bool :=
  match m with M2 i j => match nth_error (snd c) j with Some (TSleep k a) => negb (q_waiting (q_nd (fst c) a) =? 0) | _ => false end | _ => false end.
Lemma go_ok late ints c m c' : go c m = Some c' -> (late_wake c m = true -> late = true) -> (signals m = true -> ints = true) -> tq late ints c c'.
Proof.
  destruct c as [s ps]. intros E Hl Hs. destruct m as [i m|i j]; cbn [go] in E.
  - destruct (nth_error ps i) as [p|] eqn:Hi; [|discriminate]. destruct (mstep m s p) as [[s' p']|] eqn:Em; [|discriminate].
    destruct (negb (target p =? 0) && existsb (sleeps_at (target p)) ps) eqn:Ew; inversion E; subst c'.
    eapply tq_one; [exact Hi|eapply mstep_ok; eauto|]. intros p'' a W k Hin.
    assert (target p = a /\ a <> 0) as [Ht Ha] by (destruct W; split; auto). rewrite Ht in Ew. destruct (Z.eqb_spec a 0); [contradiction|]. cbn in Ew.
    assert (existsb (sleeps_at a) ps = true) by (apply existsb_exists; exists (TSleep k a); split; [exact Hin|cbn; apply Z.eqb_refl]). congruence.
  - destruct (nth_error ps i) as [p|] eqn:Hi; [|discriminate]. destruct (nth_error ps j) as [pj|] eqn:Hj; [|discriminate].
    destruct pj; try discriminate. destruct (Z.eqb_spec (target p) 0); [discriminate|]. cbn [negb andb] in E.
    destruct (Z.eqb_spec l (target p)) as [->|]; [|discriminate]. inversion E; subst c'.
    eapply tq_wake; [exact Hi| |exact Hj|].
    + destruct p; cbn in *; try lia; constructor; auto.
    + destruct (Z.eqb_spec (q_waiting (q_nd s (target p))) 0) as [|N]; [auto|]. left. apply Hl. cbn. rewrite Hj. apply Z.eqb_neq in N. rewrite N. reflexivity.
Qed.
Fixpoint gos (c : qshared * list tpc) (ms : list mv2) : option (qshared * list tpc) :=
  match ms with [] => Some c | m :: r => match go c m with Some c' => gos c' r | None => None end end.
Fixpoint any_late (c : qshared * list tpc) (ms : list mv2) : bool :=
  match ms with [] => false | m :: r => late_wake c m || match go c m with Some c' => any_late c' r | None => false end end.
Lemma gos_ok late ints : forall ms c c', gos c ms = Some c' -> (any_late c ms = true -> late = true) -> (existsb signals ms = true -> ints = true) ->
  clos_refl_trans _ (tq late ints) c c'.
Proof.
  induction ms as [|m r IH]; cbn [gos any_late existsb]; intros c c' E Hl Hs.
  - inversion E; subst. apply rt_refl.
  - destruct (go c m) as [c1|] eqn:Eg; [|discriminate]. eapply rt_trans; [apply rt_step; eapply go_ok; eauto|].
    + intros X. apply Hl. rewrite X. reflexivity.
    + intros X. apply Hs. rewrite X. reflexivity.
    + apply (IH c1 c' E); intros X; [apply Hl|apply Hs]; rewrite X; apply orb_true_r.
Qed.

(** ** A lock that was given stays with the process until it releases it *)
Lemma set_nth_at {A} (ps : list A) i j p q x : nth_error ps i = Some p -> nth_error ps j = Some q -> nth_error (set_nth j x ps) i = Some (if Nat.eqb i j then x else p).
Proof. intros Hi Hj. destruct (Nat.eqb_spec i j) as [->|N]; [eapply set_nth_same; eauto|rewrite set_nth_other; auto]. Qed.
Lemma rp_kept s ps s' ps' i p : turns rp_step (s, ps) (s', ps') -> nth_error ps i = Some p -> rp_writes p || rp_reads p = true ->
  nth_error ps' i = Some p \/ nth_error ps' i = Some RIdle.
Proof.
  intros T Hi Hp. inversion T as [s0 ps0 j q s1 q' Hj St]; subst. rewrite (set_nth_at _ _ _ _ _ _ Hi Hj). destruct (Nat.eqb_spec i j) as [->|N]; [|auto].
  rewrite Hi in Hj. injection Hj as <-. destruct St; try discriminate; auto.
Qed.
Lemma wp_kept s ps s' ps' i p : turns wp_step (s, ps) (s', ps') -> nth_error ps i = Some p -> wp_writes p || wp_reads p = true ->
  nth_error ps' i = Some p \/ nth_error ps' i = Some WIdle \/ nth_error ps' i = Some WWDec.
Proof.
  intros T Hi Hp. inversion T as [s0 ps0 j q s1 q' Hj St]; subst. rewrite (set_nth_at _ _ _ _ _ _ Hi Hj). destruct (Nat.eqb_spec i j) as [->|N]; [|auto].
  rewrite Hi in Hj. injection Hj as <-. destruct St; try discriminate; auto.
Qed.
Lemma tq_kept late ints s ps s' ps' i k l : tq late ints (s, ps) (s', ps') -> nth_error ps i = Some (THold k l) ->
  nth_error ps' i = Some (THold k l) \/ nth_error ps' i = Some (TRel k l).
Proof.
  intros T Hi. inversion T as [s0 ps0 j q s1 q' Hj St|s0 ps0 j q q' a m k' Hj W Hm]; subst.
  - rewrite (set_nth_at _ _ _ _ _ _ Hi Hj). destruct (Nat.eqb_spec i j) as [->|N]; [|auto]. rewrite Hi in Hj. injection Hj as <-. inversion St; subst; auto.
  - left. destruct (Nat.eq_dec i m) as [->|N]; [congruence|]. rewrite set_nth_other by auto. destruct (Nat.eq_dec i j) as [->|N']; [|rewrite set_nth_other; auto].
    rewrite Hi in Hj. injection Hj as <-. inversion W.
Qed.
