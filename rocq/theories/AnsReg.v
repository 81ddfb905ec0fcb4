(** The list of registered answers. *)
From Coq Require Import List ZArith Bool Lia.
From Verif Require Import Terms MatchModel MatchProof MetaModel DeriveModel DeriveSpec VecModel VecSpec VecProof AnsModel AnsSpec.
Import ListNotations.
Open Scope Z_scope.

Section Same.
  Variable sb : stray_env.
  Lemma same_literals_spec : forall xs ys, length xs = length ys ->
    match same_literals sb xs ys with
    | EYes => map lit_of_clit xs = map lit_of_clit ys
    | _ => map lit_of_clit xs <> map lit_of_clit ys
    end.
  Proof.
    induction xs as [|x xs IH]; intros [|y ys] Hl; try discriminate; cbn [same_literals map]; auto.
    destruct (Bool.eqb (meta_is_neg (lmeta x)) (meta_is_neg (lmeta y))) eqn:Es; cbn [negb].
    - apply Bool.eqb_prop in Es. pose proof (equal_term_spec sb (latom x) (latom y)) as H.
      destruct (equal_term sb (latom x) (latom y)).
      + specialize (IH ys ltac:(simpl in Hl; lia)). unfold lit_of_clit at 1 3. rewrite Es, H.
        destruct (same_literals sb xs ys); [rewrite IH; auto| |]; intros E; injection E; auto.
      + intros E. unfold lit_of_clit in E. injection E as _ E _. contradiction.
      + intros E. unfold lit_of_clit in E. injection E as _ E _. contradiction.
    - intros E. unfold lit_of_clit in E. injection E as E _ _. rewrite E in Es. rewrite Bool.eqb_reflx in Es. discriminate.
  Qed.
  Lemma same_answers_spec x y :
    match same_answers sb x y with EYes => same_answer x y | _ => ~ same_answer x y end.
  Proof.
    unfold same_answers, same_answer. destruct x as [w a|xs], y as [w' b|ys]; cbn [is_rule]; try (intros [E _]; discriminate).
    - pose proof (equal_term_spec sb a b) as H. destruct (equal_term sb a b); cbn.
      + subst. auto.
      + intros [_ E]. injection E as E. contradiction.
      + intros [_ E]. injection E as E. contradiction.
    - destruct (Nat.eqb_spec (length xs) (length ys)) as [L|L].
      + pose proof (same_literals_spec xs ys L) as H. destruct (same_literals sb xs ys); [auto| |]; intros [_ E]; contradiction.
      + intros [_ E]. apply L. rewrite <- (map_length lit_of_clit xs), <- (map_length lit_of_clit ys). f_equal. exact E.
  Qed.
  Lemma same_answers_nostray : (forall c, sb c = true) -> forall x y, same_answers sb x y <> EStray.
  Proof.
    intros Hs [w a|xs] [w' b|ys]; cbn; try discriminate; [apply equal_term_nostray; auto|].
    destruct (Nat.eqb _ _); [|discriminate]. revert ys. induction xs as [|x xs IH]; intros [|y ys]; cbn; try discriminate.
    destruct (negb _); [discriminate|]. pose proof (equal_term_nostray sb Hs (latom x) (latom y)) as H.
    destruct (equal_term sb (latom x) (latom y)); auto; discriminate.
  Qed.
End Same.

(** ** The length word of the vector stays even *)
Lemma grow_even i : forall n nlen m, Z.Even nlen -> grow n nlen i = Some m -> Z.Even m.
Proof.
  induction n as [|n IH]; intros nlen m E; cbn [grow]; [discriminate|].
  destruct (nlen <? i); [|intros H; injection H as <-; auto].
  destruct (2 ^ 31 <=? nlen * 2); [discriminate|]. apply IH. exists nlen. lia.
Qed.
Lemma store_even ok junk v i e v' vlen : rd v 0 = Some vlen -> 1 <= vlen -> Z.Even vlen -> 2 <= i -> cvec_store ok junk v i e = VOk v' ->
  exists n, rd v' 0 = Some n /\ Z.Even n /\ (i <= vlen -> n = vlen).
Proof.
  intros R Hv E Hi. unfold cvec_store, vec_store. rewrite R.
  assert (X : forall nv n, rd nv 0 = Some n -> Z.Even n -> (i <= vlen -> n = vlen) ->
    match wr_res nv i e with VOk nvec => match rd nvec 1 with None => VUB
       | Some next => if next <=? i then wr_res nvec 1 (i + 1) else VOk nvec end | r => r end = VOk v' ->
    exists n, rd v' 0 = Some n /\ Z.Even n /\ (i <= vlen -> n = vlen)).
  { intros nv n Rn En Hn. unfold wr_res. destruct (wr nv i e) as [w|] eqn:Ew; [|discriminate].
    apply wr_some in Ew as (_&_&_&O). assert (Rw : rd w 0 = Some n) by (rewrite O by lia; auto).
    destruct (rd w 1) as [next|]; [|discriminate]. destruct (next <=? i).
    - destruct (wr w 1 (i + 1)) as [w2|] eqn:E2; [|discriminate]. apply wr_some in E2 as (_&_&_&O2).
      intros H; injection H as <-. exists n. rewrite O2 by lia. auto.
    - intros H; injection H as <-. exists n. auto. }
  destruct (Z.leb_spec i vlen) as [L|L]; [apply (X v vlen); auto|].
  unfold vec_realloc. rewrite R. destruct (Z.leb_spec i vlen); [lia|].
  destruct (Z.leb_spec vlen 0); [lia|].
  destruct (grow 40 (vlen * 2) i) as [nlen|] eqn:Eg; [|discriminate].
  destruct (negb ok); [discriminate|].
  set (big := firstn _ _). clearbody big. unfold wr_res at 1. destruct (wr big 0 nlen) as [nv|] eqn:En; [|discriminate].
  intros Hfin. apply wr_some in En as (_&_&Rn&_).
  apply (X nv nlen); auto; [|lia]. apply (grow_even i 40 (vlen * 2)); auto. exists vlen. lia.
Qed.

Section Reg.
  Variable sb : stray_env.
  Variable mem : Z -> scl.

  Record areg (v : vec) (L : list Z) : Prop := {
    ar_listed : listed v L;
    ar_len : exists vlen, rd v 0 = Some vlen /\ 1000 <= vlen < 2 ^ 31 /\ Z.Even vlen /\
      vlen + 1 <= Z.of_nat (length v) <= vlen + 2 /\ 2 * Z.of_nat (length L) + 1 <= vlen }.

  Lemma areg_new junk : areg (no_answers junk) [].
  Proof.
    split; [split; [reflexivity|intros [|i] x; discriminate]|].
    exists 1000. unfold no_answers, cvec_new, initial_answers_len.
    split; [reflexivity|]. split; [lia|]. split; [exists 500; reflexivity|].
    cbn [length]. rewrite map_length, seq_length. split; lia.
  Qed.

  Lemma look_spec v L w : listed v L -> forall n k, (k <= length L)%nat -> (length L - k < n)%nat ->
    match look sb mem n v (2 + 2 * Z.of_nat k) (2 + 2 * Z.of_nat (length L)) w with
    | FHit => exists j x, (k <= j)%nat /\ nth_error L j = Some x /\ same_answer (mem x) (mem w)
    | FMiss => forall j x, (k <= j)%nat -> nth_error L j = Some x -> x <> 0 /\ w <> 0 /\ ~ same_answer (mem x) (mem w)
    | FCrash => (w = 0 \/ In 0 L) /\ (k < length L)%nat
    | FStrayRead => ~ forall c, sb c = true
    | FOutside => False
    end.
  Proof.
    intros [_ HL]. induction n as [|n IH]; intros k Hk Hn; [lia|]. cbn [look].
    destruct (Z.ltb_spec (2 + 2 * Z.of_nat k) (2 + 2 * Z.of_nat (length L))) as [Hlt|Hge].
    - destruct (nth_error L k) as [x|] eqn:Ek; [|apply nth_error_None in Ek; lia].
      rewrite (HL _ _ Ek).
      destruct (Z.eqb_spec x 0) as [->|Nx]; cbn [orb]; [split; [right; eapply nth_error_In; eauto|lia]|].
      destruct (Z.eqb_spec w 0) as [->|Nw]; [split; [auto|lia]|].
      pose proof (same_answers_spec sb (mem x) (mem w)) as Hs.
      destruct (same_answers sb (mem x) (mem w)) eqn:Es.
      + exists k, x. auto.
      + replace (2 + 2 * Z.of_nat k + 2) with (2 + 2 * Z.of_nat (S k)) by lia.
        specialize (IH (S k) ltac:(lia) ltac:(lia)). destruct (look _ _ _ _ _ _ _); auto.
        * destruct IH as (j&y&A&B). exists j, y. split; [lia|auto].
        * intros j y Hj Hy. destruct (Nat.eq_dec j k) as [->|]; [rewrite Ek in Hy; injection Hy as <-; auto|].
          apply IH with (j := j); auto. lia.
        * destruct IH. split; auto. lia.
      + intros Hc. revert Es. apply same_answers_nostray. auto.
    - intros j x Hj Hx. assert (j < length L)%nat by (apply nth_error_Some; congruence). lia.
  Qed.

  Lemma answer_nr_listed v L : listed v L -> answer_nr v = Some (Z.of_nat (length L)).
  Proof.
    intros [E _]. unfold answer_nr. rewrite E. f_equal. replace (2 + 2 * Z.of_nat (length L) - 2) with (Z.of_nat (length L) * 2) by lia.
    apply Z.quot_mul. lia.
  Qed.

  (** Adding a pair. *)
  Lemma add_pair v L w hw ok1 ok2 junk : areg v L -> 2 * Z.of_nat (length L) + 3 < index_max ->
    exists v1, cvec_store ok1 junk v (2 + 2 * Z.of_nat (length L)) w = VOk v1 /\
    (forall len, rd v 0 = Some len -> 2 + 2 * Z.of_nat (length L) <= len) /\
    match cvec_store ok2 junk v1 (2 + 2 * Z.of_nat (length L) + 1) hw with
    | VOk v2 => areg v2 (L ++ [w])
    | VFail => ok2 = false
    | VUB => False
    end.
  Proof.
    intros [[A1 A2] (vlen&B0&B1&B2&B3&B4)] Hm. set (c := 2 + 2 * Z.of_nat (length L)) in *.
    assert (Hc : c <= vlen). { destruct B2 as [q ->]. unfold c in *. lia. }
    pose proof (cstore_ok ok1 junk v c w vlen c B0 A1 ltac:(lia) B3 ltac:(lia) ltac:(unfold c in *; lia)) as G1.
    destruct (cvec_store ok1 junk v c w) as [v1| |] eqn:E1.
    - destruct (store_even ok1 junk v c w v1 vlen B0 ltac:(lia) B2 ltac:(unfold c; lia) E1) as (n1&R1&Ev1&Hn1).
      specialize (Hn1 Hc). subst n1. destruct G1 as (nl&C1&C2&C3&C4&C5&C6&C7). rewrite R1 in C1. injection C1 as <-.
      exists v1. split; auto. split; [intros len Hlen; rewrite B0 in Hlen; injection Hlen as <-; auto|].
      pose proof (cstore_ok ok2 junk v1 (c + 1) hw vlen (Z.max (c + 1) c) R1 C6 ltac:(lia) C4 ltac:(lia) ltac:(unfold c in *; lia)) as G2.
      destruct (cvec_store ok2 junk v1 (c + 1) hw) as [v2| |] eqn:E2; auto.
      destruct (store_even ok2 junk v1 (c + 1) hw v2 vlen R1 ltac:(lia) Ev1 ltac:(unfold c; lia) E2) as (n2&R2&Ev2&_).
      destruct G2 as (nl2&D1&D2&D3&D4&D5&D6&D7). rewrite R2 in D1. injection D1 as <-.
      split; [split|].
      + rewrite D6. f_equal. rewrite app_length. cbn [length]. unfold c. lia.
      + intros i x Hx. destruct (Nat.lt_ge_cases i (length L)) as [Hi|Hi].
        * rewrite nth_error_app1 in Hx by auto. rewrite D7; [|unfold c in *; lia|unfold c in *; lia|unfold c in *; lia].
          rewrite C7; [|unfold c in *; lia|unfold c in *; lia|unfold c in *; lia]. apply A2. auto.
        * rewrite nth_error_app2 in Hx by auto. destruct (i - length L)%nat as [|k] eqn:Ek; [|destruct k; discriminate].
          cbn in Hx. injection Hx as ->. replace (2 + 2 * Z.of_nat i) with c by (unfold c; lia).
          rewrite D7; [exact C5|unfold c in *; lia|lia|lia].
      + exists n2. rewrite app_length. cbn [length]. repeat split; auto; unfold c in *; lia.
    - exfalso. revert E1. unfold cvec_store, vec_store. rewrite B0. destruct (Z.leb_spec c vlen); [|lia].
      unfold wr_res. destruct (wr v c w); [|discriminate]. destruct (rd v0 1); [|discriminate].
      destruct (_ <=? _); [|discriminate]. destruct (wr _ _ _); discriminate.
    - contradiction.
  Qed.

  Definition fresh_in (L : list Z) (w : Z) : Prop := forall x, In x L -> ~ same_answer (mem x) (mem w).
  Definition known_in (L : list Z) (w : Z) : Prop := exists x, In x L /\ same_answer (mem x) (mem w).

  (** What registration does. *)
  Lemma register_spec v L w hist ok1 ok2 junk : areg v L -> 2 * Z.of_nat (length L) + 3 < index_max ->
    match register sb mem true hist ok1 ok2 junk (Some v) w with
    | RRet r (Some v') =>
        (known_in L w /\ v' = v /\ r = Z.of_nat (length L)) \/
        (fresh_in L w /\ hist = None /\ v' = v /\ r = -1) \/
        (fresh_in L w /\ hist <> None /\ areg v' (L ++ [w]) /\ r = Z.of_nat (length L) + 1)
    | RRet r None => r = -1 /\ ok2 = false
    | RCrash => (w = 0 \/ In 0 L) /\ L <> []
    | RStray => ~ forall c, sb c = true
    | RStale | RUB => False
    end.
  Proof.
    intros Ha Hm. pose proof Ha as [Hli (vlen&B0&B1&B2&B3&B4)]. unfold register. cbn [negb].
    rewrite B0. rewrite (proj1 Hli). destruct (Z.ltb_spec 0 (2 + 2 * Z.of_nat (length L))); [|lia].
    pose proof (look_spec v L w Hli (length v) 0 ltac:(lia) ltac:(lia)) as Hl. cbn [Z.of_nat Z.mul Z.add] in Hl.
    destruct (look sb mem (length v) v 2 _ w).
    - rewrite (answer_nr_listed v L Hli). left. destruct Hl as (j&x&_&Hx&Hs). split; auto. exists x. split; [eapply nth_error_In; eauto|auto].
    - assert (Hf : fresh_in L w).
      { intros x Hx. apply In_nth_error in Hx as [j Hj]. apply (Hl j x); auto. lia. }
      destruct hist as [hw|].
      + destruct (add_pair v L w hw ok1 ok2 junk Ha Hm) as (v1&E1&Hlen&E2). rewrite E1.
        destruct (Z.ltb_spec vlen (2 + 2 * Z.of_nat (length L))) as [Hlt|_]; [specialize (Hlen _ B0); lia|].
        destruct (cvec_store ok2 junk v1 _ hw) as [v2| |]; auto.
        rewrite (answer_nr_listed v2 (L ++ [w]) (ar_listed _ _ E2)). right; right. split; auto. split; [discriminate|].
        split; auto. rewrite app_length. cbn [length]. lia.
      + right; left. auto.
    - destruct Hl as [A B]. split; auto. intros ->. cbn in B. lia.
    - exact Hl.
    - exact Hl.
  Qed.

  Lemma register_null v L w hist ok1 ok2 junk : areg v L -> L <> [] -> w = 0 \/ nth_error L 0 = Some 0 ->
    register sb mem true hist ok1 ok2 junk (Some v) w = RCrash.
  Proof.
    intros [Hli (vlen&B0&B1&B2&B3&B4)] Hne Hz. unfold register. cbn [negb].
    rewrite B0. rewrite (proj1 Hli). destruct (Z.ltb_spec 0 (2 + 2 * Z.of_nat (length L))); [|lia].
    destruct L as [|x L]; [contradiction|]. cbn [length] in *.
    destruct (length v) as [|n] eqn:El; [lia|]. cbn [look].
    destruct (Z.ltb_spec 2 (2 + 2 * Z.of_nat (S (length L)))); [|lia].
    pose proof (proj2 Hli 0%nat x eq_refl) as Hx. change (2 + 2 * Z.of_nat 0) with 2 in Hx. rewrite Hx.
    replace ((x =? 0) || (w =? 0)) with true; [reflexivity|]. symmetry.
    destruct Hz as [->|E]; [apply orb_true_r|]. cbn in E. injection E as ->. reflexivity.
  Qed.

  (** ** Histories *)
  Definition pairwise (L : list Z) : Prop :=
    forall i j x y, nth_error L i = Some x -> nth_error L j = Some y -> i <> j -> ~ same_answer (mem x) (mem y).

  Lemma same_sym x y : same_answer x y -> same_answer y x.
  Proof. intros [A B]. split; auto. Qed.
  Lemma same_trans x y z : same_answer x y -> same_answer y z -> same_answer x z.
  Proof. intros [A B] [C D]. split; congruence. Qed.

  Lemma pairwise_snoc L w : pairwise L -> fresh_in L w -> pairwise (L ++ [w]).
  Proof.
    intros Hp Hf i j x y Hi Hj Hne.
    assert (B : forall k z, nth_error (L ++ [w]) k = Some z -> (nth_error L k = Some z) \/ (k = length L /\ z = w)).
    { intros k z Hk. destruct (Nat.lt_ge_cases k (length L)) as [H|H]; [rewrite nth_error_app1 in Hk by auto; auto|].
      rewrite nth_error_app2 in Hk by auto. destruct (k - length L)%nat as [|m] eqn:Em; [|destruct m; discriminate].
      cbn in Hk. injection Hk as <-. right. split; auto. lia. }
    destruct (B _ _ Hi) as [A|[A ->]], (B _ _ Hj) as [C|[C ->]].
    - eapply Hp; eauto.
    - apply Hf. eapply nth_error_In; eauto.
    - intros S. apply (Hf y); [eapply nth_error_In; eauto|]. apply same_sym. auto.
    - lia.
  Qed.

  Lemma registering_inv h v : registering sb mem h v -> Z.of_nat (length h) < 2 ^ 28 ->
    exists L, areg v L /\ pairwise L /\ (length L <= length h)%nat /\ (forall x, In x L -> In x h) /\ (forall w, In w h -> known_in L w).
  Proof.
    intros H. induction H as [junk|h v w hist ok1 ok2 junk r v' H IH E]; intros Hb.
    - exists []. split; [apply areg_new|]. split; [intros [|i] j x y; discriminate|]. split; [auto|]. split; [auto|intros w []].
    - assert (Hb' : Z.of_nat (length h) < 2 ^ 28) by (destruct (0 <=? r); cbn [length] in Hb; lia).
      destruct (IH Hb') as (L&A&P&Hl&B&C). pose proof (register_spec v L w hist ok1 ok2 junk A ltac:(unfold index_max; lia)) as G. rewrite E in G.
      destruct G as [(K&->&->)|[(K&->&->& ->)|(K&_&A'&->)]].
      + destruct (Z.leb_spec 0 (Z.of_nat (length L))); [|lia]. exists L. split; auto. split; auto. split; [simpl; lia|].
        split; [intros x Hx; simpl; auto|]. intros x [<-|Hx]; auto.
      + change (0 <=? -1) with false. cbv iota. exists L. auto.
      + destruct (Z.leb_spec 0 (Z.of_nat (length L) + 1)); [|lia]. exists (L ++ [w]). split; auto. split; [apply pairwise_snoc; auto|].
        split; [rewrite app_length; simpl; lia|]. split.
        * intros x Hx. apply in_app_or in Hx as [Hx|[<-|[]]]; simpl; auto.
        * intros x [<-|Hx].
          -- exists w. split; [apply in_or_app; simpl; auto|split; auto].
          -- destruct (C x Hx) as (y&Hy&S). exists y. split; auto. apply in_or_app. auto.
  Qed.

  Lemma listed_unique v L L' : listed v L -> listed v L' -> L = L'.
  Proof.
    intros [A B] [C D]. assert (E : 2 + 2 * Z.of_nat (length L) = 2 + 2 * Z.of_nat (length L')) by congruence.
    apply (nth_ext _ _ 0 0); [lia|]. intros n Hn. 
    destruct (nth_error L n) as [x|] eqn:E1; [|apply nth_error_None in E1; lia].
    destruct (nth_error L' n) as [y|] eqn:E2; [|apply nth_error_None in E2; lia].
    rewrite (nth_error_nth _ _ _ E1), (nth_error_nth _ _ _ E2). apply B in E1. apply D in E2. congruence.
  Qed.

  Lemma registered_once h v : registering sb mem h v -> Z.of_nat (length h) < 2 ^ 28 ->
    exists L, listed v L /\ pairwise L /\ (forall x, In x L -> In x h) /\ (forall w, In w h -> exists x, In x L /\ same_answer (mem x) (mem w)).
  Proof.
    intros H Hb. destruct (registering_inv h v H Hb) as (L&A&P&_&B&C). exists L. split; [apply A|auto].
  Qed.

  Lemma register_once h v L w hist ok1 ok2 junk : registering sb mem h v -> Z.of_nat (length h) < 2 ^ 28 -> listed v L ->
    w <> 0 -> ~ In 0 L -> (forall c, sb c = true) ->
    exists r a, register sb mem true hist ok1 ok2 junk (Some v) w = RRet r a /\
      match a with
      | None => r = -1 /\ ok2 = false
      | Some v' =>
          ((exists x, In x L /\ same_answer (mem x) (mem w)) /\ v' = v /\ r = Z.of_nat (length L)) \/
          ((forall x, In x L -> ~ same_answer (mem x) (mem w)) /\
             (hist = None /\ v' = v /\ r = -1 \/ hist <> None /\ listed v' (L ++ [w]) /\ r = Z.of_nat (length (L ++ [w]))))
      end.
  Proof.
    intros H Hb HL Hw Hz Hs. destruct (registering_inv h v H Hb) as (L'&A&P&Hl&B&C).
    assert (L' = L) by (eapply listed_unique; eauto using ar_listed). subst L'.
    pose proof (register_spec v L w hist ok1 ok2 junk A ltac:(unfold index_max; lia)) as G.
    destruct (register sb mem true hist ok1 ok2 junk (Some v) w) as [r [v'|]| | | |]; try tauto; [|exists r, None; auto].
    exists r, (Some v'). split; auto. destruct G as [G|[(K&->&->&->)|(K&N&A'&->)]]; auto; right; split; auto.
    right. split; auto. split; [apply A'|]. rewrite app_length. cbn [length]. lia.
  Qed.

  Lemma register_crash h v L w hist ok1 ok2 junk : registering sb mem h v -> Z.of_nat (length h) < 2 ^ 28 -> listed v L ->
    L <> [] -> w = 0 \/ nth_error L 0 = Some 0 -> register sb mem true hist ok1 ok2 junk (Some v) w = RCrash.
  Proof.
    intros H Hb HL Hne Hz. destruct (registering_inv h v H Hb) as (L'&A&P&Hl&B&C).
    assert (L' = L) by (eapply listed_unique; eauto using ar_listed). subst L'. apply register_null with (L := L); auto.
  Qed.

  Lemma enough_spec v L required pf : listed v L ->
    enough_answers true required (Some v) pf =
      Some (if required <=? Z.of_nat (length L) then (true, pf) else (false, false)) /\
    have_answers true (Some v) pf = Some (pf || (1 <=? Z.of_nat (length L))) /\
    (forall a, enough_answers false required a pf = Some (true, pf) /\ have_answers false a pf = Some pf) /\
    enough_answers true required None pf = Some (true, pf) /\ have_answers true None pf = Some pf.
  Proof.
    intros H. unfold enough_answers, have_answers. cbn [negb]. rewrite (answer_nr_listed v L H).
    repeat split; destruct pf; auto.
  Qed.
End Reg.
