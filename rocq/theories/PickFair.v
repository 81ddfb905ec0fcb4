From Coq Require Import List ZArith Bool Lia Permutation.
From Verif Require Import VecModel VecSpec VecProof QueueModel QueueSpec QueueProof PickModel PickSpec PickProof PickRun PickInv.
Import ListNotations.
Open Scope Z_scope.

Lemma none_inv cfg tr s : Inv cfg tr s -> Inv cfg (tr ++ [NoneLeft]) s.
Proof.
  intros [IB IC (pos&rest&IH)].
  assert (F : forall (f : event -> list Z), f NoneLeft = [] -> flat_map f (tr ++ [NoneLeft]) = flat_map f tr).
  { intros f Hf. rewrite flat_map_app. cbn. rewrite Hf. apply app_nil_r. }
  split; [|exact IC|].
  - intros b. unfold BT, kept_in, by_age, by_weight. rewrite !F by reflexivity.
    assert (W : weighed_in cfg b (tr ++ [NoneLeft]) = weighed_in cfg b tr) by (unfold weighed_in; rewrite flat_map_app; cbn; apply app_nil_r).
    rewrite W. apply IB.
  - exists pos, rest. unfold HI, kept_hyper, by_hyper. rewrite !F by reflexivity. exact IH.
Qed.
Lemma hyper_inv cfg tr s c v pos r : Inv cfg tr s -> HI (tr ++ [Chosen Hyper c]) v pos r -> Inv cfg (tr ++ [Chosen Hyper c]) (set_hyper s v).
Proof.
  intros [IB IC IH] H. split; [|exact IC|exists pos, r; exact H].
  intros b. unfold BT.
  assert (F : forall (f : event -> list Z), f (Chosen Hyper c) = [] -> flat_map f (tr ++ [Chosen Hyper c]) = flat_map f tr).
  { intros f Hf. rewrite flat_map_app. cbn. rewrite Hf. apply app_nil_r. }
  assert (W : weighed_in cfg b (tr ++ [Chosen Hyper c]) = weighed_in cfg b tr) by (unfold weighed_in; rewrite flat_map_app; cbn; apply app_nil_r).
  unfold kept_in, by_age, by_weight. rewrite !F by reflexivity. rewrite W. apply IB.
Qed.

Lemma step_inv cfg tr s e s' : Inv cfg tr s -> step cfg s e s' -> fits (tr ++ [e]) -> Inv cfg (tr ++ [e]) s'.
Proof.
  intros I H F. destruct H as [c w ok1 ok2 j1 j2 s' Hc E|c ok j s' Hc E|src c s' E|s' E].
  - apply (push_inv _ _ _ _ _ _ _ _ _ _ I Hc F E).
  - apply (hyper_push_inv _ _ _ _ _ _ _ I F E).
  - destruct (select_char _ _ _ I) as [(c'&v&pos&r&E'&H)|(HH&[(s0&E'&_)|(l&s0&s1&light&c'&x&E0&Hl&B0&I0&B1&Hn&Hp&E')])]; rewrite E in E'; [|discriminate|].
    + injection E' as -> -> ->. apply (hyper_inv _ _ _ _ _ _ _ I H).
    + injection E' as -> -> ->. destruct (idle_inv _ _ _ _ _ Hl B0 I0) as (I1&_&Hh&_). apply hit_inv; auto. rewrite Hh, E0. exact HH.
  - destruct (select_char _ _ _ I) as [(c'&v&pos&r&E'&H)|(HH&[(s0&E'&I'&_)|(l&s0&s1&light&c'&x&E0&Hl&B0&I0&B1&Hn&Hp&E')])]; rewrite E in E'; [discriminate| |discriminate].
    injection E' as <-. apply none_inv. exact I'.
Qed.
Lemma steps_inv cfg : forall tr2 tr s s', Inv cfg tr s -> steps cfg s tr2 s' -> fits (tr ++ tr2) -> Inv cfg (tr ++ tr2) s'.
Proof.
  induction tr2 as [|e tr2 IH]; intros tr s s' I H F; inversion H; subst.
  - rewrite app_nil_r. exact I.
  - replace (tr ++ e :: tr2) with ((tr ++ [e]) ++ tr2) in * by (rewrite <- app_assoc; reflexivity).
    eapply IH; [|eassumption|exact F]. eapply step_inv; [exact I|eassumption|]. apply fits_app in F. exact F.
Qed.
Lemma history_inv cfg tr s : history cfg tr s -> fits tr -> Inv cfg tr s.
Proof. intros (G&junk&H) F. apply (steps_inv cfg tr [] (create cfg junk) s); [apply new_inv_pick; exact G|exact H|exact F]. Qed.

(** How many choices can come before the next one from class [t]. *)
Definition rem (x : block) : Z := 1 + Z.max 0 ((tratio x - tcount x) / 2).
Arguments rem : simpl never.
Fixpoint dist (n : nat) (s : sel) (k t : Z) : Z :=
  match n with O => 0 | S n => if k =? t then 0 else rem (blk s k) + dist n s (nx k) t end.
Definition away (s : sel) (t : Z) : Z := dist 4 s (cur4 s) t.

Lemma rem_pos x : 1 <= rem x. Proof. unfold rem. lia. Qed.
Lemma dist_pos n : forall s k t, 0 <= dist n s k t.
Proof. induction n; intros; cbn; [lia|]. destruct (k =? t); [lia|]. pose proof (rem_pos (blk s k)). specialize (IHn s (nx k) t). lia. Qed.
Lemma dist_ext n : forall s s' k t, (forall j, rem (blk s j) = rem (blk s' j)) -> dist n s k t = dist n s' k t.
Proof. induction n; intros; cbn; auto. destruct (k =? t); auto. rewrite H, (IHn s s') by exact H. reflexivity. Qed.

Lemma rem_full cfg tr s b : Inv cfg tr s -> rem (blk s b) <= 1 + this_ratio (strat cfg) b / 2.
Proof.
  intros I. destruct (iv_blk _ _ _ I b) as [_ _ _ _ _ _ T T0 _]. unfold rem. rewrite T.
  assert (0 <= this_ratio (strat cfg) b) by (unfold this_ratio; destruct (b =? 0), (b =? 1), (b =? 2), (strat cfg =? 0); cbn; lia).
  assert ((this_ratio (strat cfg) b - tcount (blk s b)) / 2 <= this_ratio (strat cfg) b / 2) by (apply Z.div_le_mono; lia).
  assert (0 <= this_ratio (strat cfg) b / 2) by (apply Z.div_pos; lia). lia.
Qed.
Lemma away_le cfg tr s t : Inv cfg tr s -> B4 t -> away s t <= 8.
Proof.
  intros I Ht. pose proof (rem_full _ _ _ 0 I) as R0. pose proof (rem_full _ _ _ 1 I) as R1. pose proof (rem_full _ _ _ 2 I) as R2. pose proof (rem_full _ _ _ 3 I) as R3.
  assert (F : 1 + this_ratio (strat cfg) 0 / 2 <= 4 /\ 1 + this_ratio (strat cfg) 1 / 2 <= 3 /\ 1 + this_ratio (strat cfg) 2 / 2 <= 1 /\ 1 + this_ratio (strat cfg) 3 / 2 <= 1).
  { unfold this_ratio. destruct (strat cfg =? 0); cbv; repeat split; discriminate. }
  pose proof (rem_pos (blk s 0)). pose proof (rem_pos (blk s 1)). pose proof (rem_pos (blk s 2)). pose proof (rem_pos (blk s 3)).
  assert (HB : B4 (cur4 s)). { pose proof (iv_cur _ _ _ I). unfold cur4, B4. destruct (Z.leb_spec 4 (cur s)); lia. }
  unfold away. destruct HB as [-> |[-> |[-> | ->]]]; destruct Ht as [-> |[-> |[-> | ->]]]; cbn [dist Z.eqb nx Z.leb Z.compare Pos.compare Pos.compare_cont Z.add Pos.add Pos.eqb]; cbn; lia.
Qed.

Lemma dist_from s k t : B4 k -> B4 t -> k <> t -> dist 4 s k t = rem (blk s k) + dist 4 s (nx k) t.
Proof.
  intros Hk Ht N. destruct Hk as [-> |[-> |[-> | ->]]]; destruct Ht as [-> |[-> |[-> | ->]]]; try contradiction; cbn; lia.
Qed.
Lemma dist_skip s s' k t : B4 k -> B4 t -> k <> t -> (forall j, j <> k -> rem (blk s' j) = rem (blk s j)) -> dist 4 s' (nx k) t = dist 4 s (nx k) t.
Proof.
  intros Hk Ht N E. destruct Hk as [-> |[-> |[-> | ->]]]; destruct Ht as [-> |[-> |[-> | ->]]]; try contradiction; cbn; rewrite ?E by discriminate; reflexivity.
Qed.

Lemma inv_rem cfg tr tr' s s' k : Inv cfg tr s -> Inv cfg tr' s' -> tcount (blk s' k) = tcount (blk s k) -> rem (blk s' k) = rem (blk s k).
Proof.
  intros I I' T. unfold rem. rewrite (bi_tratio _ _ _ _ _ _ _ (iv_blk _ _ _ I k)), (bi_tratio _ _ _ _ _ _ _ (iv_blk _ _ _ I' k)), T. reflexivity.
Qed.
Lemma idles_away cfg tr t l : forall s s', idles l s s' -> B4 (cur s) -> B4 t -> ~ In t l -> Inv cfg tr s ->
  dist 4 s' (cur s') t <= dist 4 s (cur s) t.
Proof.
  induction l as [|k l IH]; intros s s' H HB Ht Hn I; inversion H; subst.
  - lia.
  - match goal with Hp : pick_block _ = Some (None, ?x) |- _ => pose proof (id_cons s x [] _ Hp (id_nil _)) as S1; set (s1 := set_cur (set_blk s (cur s) x) (nx (cur s))) in * end.
    destruct (idle_inv _ _ _ _ _ S1 HB I) as (I1&T1&_&_&_&B1).
    assert (N : cur s <> t) by (intros X; apply Hn; left; exact X).
    assert (L : dist 4 s' (cur s') t <= dist 4 s1 (cur s1) t) by (apply IH; auto; intros X; apply Hn; right; exact X).
    rewrite (dist_from s (cur s) t HB Ht N). change (cur s1) with (nx (cur s)) in L.
    rewrite (dist_skip s s1 (cur s) t HB Ht N) in L; [pose proof (rem_pos (blk s (cur s))); lia|].
    intros j _. apply (inv_rem cfg tr tr); auto.
Qed.

(** A choice from another class brings the next choice from class [t] nearer. *)
Lemma hit_away s x t : B4 (cur s) -> B4 t -> cur s <> t -> tcount x = tcount (blk s (cur s)) + 1 -> tratio x = tratio (blk s (cur s)) ->
  away (after_hit s x) t + 1 <= dist 4 s (cur s) t.
Proof.
  intros HB Ht N T R. rewrite (dist_from s (cur s) t HB Ht N). pose proof (rem_pos (blk s (cur s))) as RP. unfold after_hit.
  destruct (Z.leb_spec (tratio x) (tcount x)) as [L|L].
  - set (s' := set_cur (set_blk s (cur s) (with_tcount x 0)) (cur s + 1)).
    assert (C : cur4 s' = nx (cur s)). { unfold cur4, nx, s'. cbn. destruct HB as [-> |[-> |[-> | ->]]]; reflexivity. }
    unfold away. rewrite C, (dist_skip s s' (cur s) t HB Ht N); [lia|].
    intros j Hj. unfold s'. cbn. destruct (Z.eqb_spec j (cur s)); [contradiction|reflexivity].
  - set (s' := set_blk s (cur s) (with_tcount x (tcount x + 1))).
    assert (C : cur4 s' = cur s). { unfold cur4, s'. cbn. destruct HB as [-> |[-> |[-> | ->]]]; reflexivity. }
    unfold away. rewrite C, (dist_from s' (cur s) t HB Ht N), (dist_skip s s' (cur s) t HB Ht N).
    + assert (RR : rem (blk s' (cur s)) = rem (blk s (cur s)) - 1); [|lia].
      unfold s', rem. cbn [set_blk blk]. rewrite Z.eqb_refl. cbn [with_tcount tratio tcount]. rewrite T, R.
      replace (tratio (blk s (cur s)) - (tcount (blk s (cur s)) + 1 + 1)) with (tratio (blk s (cur s)) - tcount (blk s (cur s)) + (-1) * 2) by lia.
      rewrite Z.div_add by lia. assert (1 <= (tratio (blk s (cur s)) - tcount (blk s (cur s))) / 2) by (apply Z.div_le_lower_bound; lia). lia.
    + intros j Hj. unfold s'. cbn. destruct (Z.eqb_spec j (cur s)); [contradiction|reflexivity].
Qed.

(** Choices by weight that can come in class [t] before the next one by age. *)
Definition lights (cfg : config) (x : block) : Z := Z.max 0 (ratio cfg - pcount x).
Definition bound (cfg : config) (s : sel) (t : Z) (n : Z) : Z :=
  (n * (Z.max 0 (ratio cfg) + 1) + lights cfg (blk s t)) * 9 + away s t.

Lemma turns_cons e tr : turns (e :: tr) = (if is_turn e then 1 else 0) + turns tr.
Proof. unfold turns. cbn. destruct (is_turn e); cbn [length]; lia. Qed.

(** One step: either the waiting clause [c] is chosen, or the bound goes down with every turn. *)
Lemma step_bound cfg tr s e s' t c pre post : Inv cfg tr s -> step cfg s e s' -> fits (tr ++ [e]) -> B4 t ->
  kept_in cfg t tr = pre ++ c :: post -> (length (by_age t tr) <= length pre)%nat ->
  In c (chosen [e]) \/
  ((exists post', kept_in cfg t (tr ++ [e]) = pre ++ c :: post') /\ (length (by_age t (tr ++ [e])) <= length pre)%nat /\
   bound cfg s' t (Z.of_nat (length pre) - Z.of_nat (length (by_age t (tr ++ [e])))) + (if is_turn e then 1 else 0)
     <= bound cfg s t (Z.of_nat (length pre) - Z.of_nat (length (by_age t tr)))).
Proof.
  intros I H F Ht HK HA. pose proof (step_inv _ _ _ _ _ I H F) as I'. unfold bound.
  destruct H as [ci w ok1 ok2 j1 j2 s' Hc E|d ok j s' Hc E|src d s' E|s' E].
  - right. destruct (push_inv _ _ _ _ _ _ _ _ _ _ I Hc F E) as (_&C&T).
    assert (A : by_age t (tr ++ [Kept ci w]) = by_age t tr) by (unfold by_age; rewrite flat_map_app; cbn; apply app_nil_r). rewrite A.
    split. { unfold kept_in. rewrite flat_map_app. unfold kept_in in HK. rewrite HK, <- app_assoc. eexists. reflexivity. }
    split; [exact HA|]. cbn [is_turn]. unfold lights. rewrite (proj2 (T t)).
    assert (W : away s' t = away s t). { unfold away, cur4. rewrite C. apply dist_ext. intros k. apply (inv_rem _ _ _ _ _ _ I I'). apply (T k). }
    lia.
  - right. destruct (hyper_push_inv _ _ _ _ _ _ _ I F E) as (_&C&T).
    assert (A : by_age t (tr ++ [KeptHyper d]) = by_age t tr) by (unfold by_age; rewrite flat_map_app; cbn; apply app_nil_r). rewrite A.
    split. { unfold kept_in. rewrite flat_map_app. unfold kept_in in HK. rewrite HK, <- app_assoc. eexists. reflexivity. }
    split; [exact HA|]. cbn [is_turn]. unfold lights. rewrite T.
    assert (W : away s' t = away s t). { unfold away, cur4. rewrite C. apply dist_ext. intros k. rewrite T. reflexivity. }
    lia.
  - destruct (select_char _ _ _ I) as [(d'&v&pos&r&E'&H)|(HH&[(s0&E'&_)|(l&s0&s1&light&d'&x&E0&Hl&B0&I0&B1&Hn&Hp&E')])]; rewrite E in E'; [|discriminate|].
    + injection E' as -> -> ->. right.
      assert (A : by_age t (tr ++ [Chosen Hyper d']) = by_age t tr) by (unfold by_age; rewrite flat_map_app; cbn; apply app_nil_r). rewrite A.
      split. { unfold kept_in. rewrite flat_map_app. cbn. rewrite app_nil_r. exists post. exact HK. }
      split; [exact HA|]. change (blk (set_hyper s v) t) with (blk s t). change (away (set_hyper s v) t) with (away s t). cbn [is_turn]. lia.
    + injection E' as -> -> ->.
      destruct (idle_inv _ _ _ _ _ Hl B0 I0) as (I1&T1&_&Hk1&Hs1&_).
      assert (NT : ~ In t l).
      { intros X. apply Hk1 in X. rewrite HK in X. assert (LL : length (pre ++ c :: post) = length (by_age t tr)) by (rewrite X; reflexivity). rewrite app_length in LL. cbn in LL. lia. }
      pose proof (idles_away cfg tr t l s0 s1 Hl B0 Ht NT I0) as AW.
      assert (AS : dist 4 s0 (cur s0) t = away s t). { unfold away. rewrite E0. cbn [set_cur cur]. apply dist_ext. reflexivity. }
      rewrite AS in AW.
      assert (ST : blk s1 t = blk s t) by (rewrite Hs1 by exact NT; rewrite E0; reflexivity).
      assert (KT : kept_in cfg t (tr ++ [Chosen (if light then Light (cur s1) else Oldest (cur s1)) d']) = kept_in cfg t tr) by (unfold kept_in; rewrite flat_map_app; cbn; apply app_nil_r).
      assert (TURN : is_turn (Chosen (if light then Light (cur s1) else Oldest (cur s1)) d') = true) by (destruct light; reflexivity).
      pose proof (pick_block_ok _ _ _ _ _ _ _ (iv_blk _ _ _ I1 (cur s1))) as PB.
      destruct (Z.eq_dec (cur s1) t) as [Et|Nt].
      * pose proof (away_le _ _ _ t I' Ht) as A8. pose proof (dist_pos 4 s (cur4 s) t) as A0. fold (away s t) in A0.
        assert (CT : pcount (blk (after_hit s1 x) t) = pcount x). { unfold after_hit. destruct (tratio x <=? tcount x); cbn; rewrite <- Et, Z.eqb_refl; reflexivity. }
        pose proof (bi_ratio _ _ _ _ _ _ _ (iv_blk _ _ _ I t)) as RT.
        rewrite TURN. unfold lights. rewrite CT.
        destruct PB as [(x'&E'&_)|[(c'&x'&w&E'&Bx&Tx&Lt&Px&_)|(c'&x'&r&E'&Kx&Bx&Tx&P1&P2)]]; rewrite Hp in E'; inversion E'; subst light d' x'.
        -- right. assert (A : by_age t (tr ++ [Chosen (Light (cur s1)) c']) = by_age t tr) by (unfold by_age; rewrite flat_map_app; cbn; apply app_nil_r). rewrite A.
           split; [exists post; rewrite KT; exact HK|]. split; [exact HA|].
           rewrite Px. rewrite Et, ST in *. rewrite RT in Lt. lia.
        -- assert (A : by_age t (tr ++ [Chosen (Oldest (cur s1)) c']) = by_age t tr ++ [c']) by (unfold by_age; rewrite flat_map_app; cbn; rewrite Et, Z.eqb_refl; reflexivity).
           rewrite Et in Kx. rewrite HK in Kx.
           destruct (Nat.eq_dec (length (by_age t tr)) (length pre)) as [LE|LN].
           ++ left. assert (X : nth_error (pre ++ c :: post) (length pre) = Some c) by (apply nth_error_cons_app; reflexivity).
              rewrite Kx in X. rewrite nth_error_cons_app in X by (symmetry; exact LE). injection X as ->. left. reflexivity.
           ++ right. split; [exists post; rewrite KT; exact HK|]. rewrite A, app_length. cbn [length]. split; [lia|].
              rewrite Et, ST in P1, P2. rewrite RT in P1, P2. 
              destruct (Z.lt_ge_cases (pcount (blk s t)) (ratio cfg)) as [Q|Q]; [rewrite (P1 Q)|rewrite (P2 Q)]; nia.
      * right. assert (A : by_age t (tr ++ [Chosen (if light then Light (cur s1) else Oldest (cur s1)) d']) = by_age t tr).
        { unfold by_age. rewrite flat_map_app. destruct light; cbn; [apply app_nil_r|]. destruct (Z.eqb_spec (cur s1) t); [contradiction|]. apply app_nil_r. }
        rewrite A, KT. split; [exists post; exact HK|]. split; [exact HA|]. rewrite TURN.
        assert (CT : blk (after_hit s1 x) t = blk s t). { unfold after_hit. destruct (tratio x <=? tcount x); cbn; (destruct (Z.eqb_spec t (cur s1)); [congruence|exact ST]). }
        rewrite CT.
        assert (XX : tcount x = tcount (blk s1 (cur s1)) + 1 /\ tratio x = tratio (blk s1 (cur s1))).
        { rewrite (bi_tratio _ _ _ _ _ _ _ (iv_blk _ _ _ I1 (cur s1))).
          destruct PB as [(x'&E'&_)|[(c'&x'&w&E'&Bx&Tx&_)|(c'&x'&r&E'&_&Bx&Tx&_)]]; rewrite Hp in E'; inversion E'; subst x'; split; [exact Tx|apply (bi_tratio _ _ _ _ _ _ _ Bx)|exact Tx|apply (bi_tratio _ _ _ _ _ _ _ Bx)]. }
        pose proof (hit_away s1 x t B1 Ht Nt (proj1 XX) (proj2 XX)). lia.
  - exfalso. destruct (select_char _ _ _ I) as [(c'&v&pos&r&E'&H)|(HH&[(s0&E'&_&N)|(l&s0&s1&light&c'&x&E0&Hl&B0&I0&B1&Hn&Hp&E')])]; rewrite E in E'; [discriminate| |discriminate].
    specialize (N t Ht). rewrite HK in N. assert (LL : length (pre ++ c :: post) = length (by_age t tr)) by (rewrite N; reflexivity). rewrite app_length in LL. cbn in LL. lia.
Qed.

Lemma chosen_cons e tr : chosen (e :: tr) = chosen [e] ++ chosen tr.
Proof. unfold chosen. cbn. rewrite app_nil_r. reflexivity. Qed.
Lemma bound_pos cfg s t n : 0 <= n -> 0 <= bound cfg s t n.
Proof. intros H. unfold bound, lights. pose proof (dist_pos 4 s (cur4 s) t) as A0. fold (away s t) in A0. nia. Qed.

Lemma fair_bound cfg t c pre : B4 t -> forall tr2 tr s s' post, Inv cfg tr s -> steps cfg s tr2 s' -> fits (tr ++ tr2) ->
  kept_in cfg t tr = pre ++ c :: post -> (length (by_age t tr) <= length pre)%nat -> ~ In c (chosen tr2) ->
  turns tr2 <= bound cfg s t (Z.of_nat (length pre) - Z.of_nat (length (by_age t tr))).
Proof.
  intros Ht. induction tr2 as [|e tr2 IH]; intros tr s s' post I H F HK HA HN; inversion H; subst.
  - unfold turns. cbn [filter length]. apply bound_pos. lia.
  - assert (AP : tr ++ e :: tr2 = (tr ++ [e]) ++ tr2) by (rewrite <- app_assoc; reflexivity). rewrite AP in F.
    match goal with Hs : step cfg s e ?z, Hr : steps cfg ?z tr2 s' |- _ =>
      destruct (step_bound cfg tr s e z t c pre post I Hs (fits_app _ _ F) Ht HK HA) as [X|((post'&HK')&HA'&HB)];
      [exfalso; apply HN; rewrite chosen_cons; apply in_or_app; left; exact X|];
      assert (L := IH (tr ++ [e]) z s' post' (step_inv _ _ _ _ _ I Hs (fits_app _ _ F)) Hr F HK' HA') end.
    rewrite turns_cons. assert (HN' : ~ In c (chosen tr2)) by (intros X; apply HN; rewrite chosen_cons; apply in_or_app; right; exact X).
    specialize (L HN'). lia.
Qed.

Lemma class_B4 st ci : B4 (class st ci).
Proof. unfold class, B4. repeat match goal with |- context [if ?x then _ else _] => destruct x end; lia. Qed.

Lemma steps_app cfg : forall tr1 s s1 tr2 s2, steps cfg s tr1 s1 -> steps cfg s1 tr2 s2 -> steps cfg s (tr1 ++ tr2) s2.
Proof. induction tr1; intros s s1 tr2 s2 H1 H2; inversion H1; subst; cbn; [exact H2|]. econstructor; [eassumption|]. eapply IHtr1; eauto. Qed.
Lemma history_app cfg tr s tr2 s2 : history cfg tr s -> steps cfg s tr2 s2 -> history cfg (tr ++ tr2) s2.
Proof. intros (G&j&H) H2. split; [exact G|]. exists j. eapply steps_app; eauto. Qed.

Lemma fair cfg tr s c w s1 tr2 s2 : history cfg tr s -> step cfg s (Kept c w) s1 -> steps cfg s1 tr2 s2 -> fits (tr ++ Kept c w :: tr2) ->
  9 * (Z.max 0 (ratio cfg) + 1) * (Z.of_nat (length (kept_in cfg (class (strat cfg) c) tr)) + 1) <= turns tr2 -> In (addr c) (chosen tr2).
Proof.
  intros H S1 S2 F HT. assert (AP : tr ++ Kept c w :: tr2 = (tr ++ [Kept c w]) ++ tr2) by (rewrite <- app_assoc; reflexivity). rewrite AP in F.
  set (t := class (strat cfg) c) in *.
  assert (I1 : Inv cfg (tr ++ [Kept c w]) s1).
  { apply (history_inv cfg); [|apply (fits_app _ _ F)]. eapply history_app; [exact H|]. econstructor; [exact S1|constructor]. }
  destruct (in_dec Z.eq_dec (addr c) (chosen tr2)) as [X|X]; [exact X|exfalso].
  assert (HK : kept_in cfg t (tr ++ [Kept c w]) = kept_in cfg t tr ++ addr c :: []).
  { unfold kept_in. rewrite flat_map_app. cbn. fold t. rewrite Z.eqb_refl. reflexivity. }
  assert (HA : by_age t (tr ++ [Kept c w]) = by_age t tr) by (unfold by_age; rewrite flat_map_app; cbn; apply app_nil_r).
  assert (I0 : Inv cfg tr s) by (apply history_inv; [exact H|apply (fits_app tr [Kept c w]); apply (fits_app _ _ F)]).
  destruct (bi_rest _ _ _ _ _ _ _ (iv_blk _ _ _ I0 t)) as (rest&HR).
  assert (LA : (length (by_age t (tr ++ [Kept c w])) <= length (kept_in cfg t tr))%nat) by (rewrite HA, HR, app_length; lia).
  pose proof (fair_bound cfg t (addr c) (kept_in cfg t tr) (class_B4 _ _) tr2 _ s1 s2 [] I1 S2 F HK LA X) as L.
  pose proof (away_le _ _ _ t I1 (class_B4 _ _)) as A8. pose proof (bi_count _ _ _ _ _ _ _ (iv_blk _ _ _ I1 t)) as PC.
  unfold bound, lights in L. nia.
Qed.
