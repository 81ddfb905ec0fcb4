From Coq Require Import List ZArith Bool Lia Permutation.
From Verif Require Import VecModel VecSpec VecProof QueueModel QueueSpec QueueProof PickModel PickSpec PickProof PickRun.
Import ListNotations.
Open Scope Z_scope.

Definition BT (cfg : config) (tr : list event) (b : Z) (x : block) : Prop :=
  BI cfg b (kept_in cfg b tr) (by_age b tr) (weighed_in cfg b tr) (by_weight b tr) x.
Definition HI (tr : list event) (v : vec) (pos : Z) (rest : list Z) : Prop :=
  rd v 2 = Some pos /\ 3 <= pos /\ cvinv v pos rest /\ kept_hyper tr = by_hyper tr ++ rest /\
  (rest = [] -> pos = 3) /\ pos + Z.of_nat (length rest) <= 3 + Z.of_nat (length (kept_hyper tr)).
Record Inv (cfg : config) (tr : list event) (s : sel) : Prop := {
  iv_blk : forall b, BT cfg tr b (blk s b);
  iv_cur : 0 <= cur s <= 4;
  iv_hyp : exists pos rest, HI tr (hyper s) pos rest }.

Lemma kept_in_le cfg b tr : (length (kept_in cfg b tr) <= length (filter is_kept tr))%nat.
Proof.
  unfold kept_in. induction tr as [|e tr IH]; cbn; auto. destruct e as [c w|c|src c|]; cbn; try lia.
  destruct (class (strat cfg) c =? b); cbn; lia.
Qed.
Lemma kept_hyper_le tr : (length (kept_hyper tr) <= length (filter is_kept tr))%nat.
Proof. induction tr as [|e tr IH]; cbn; auto. destruct e as [c w|c|src c|]; cbn; unfold kept_hyper in IH; lia. Qed.

Lemma new_inv_pick cfg junk : good cfg -> Inv cfg [] (create cfg junk).
Proof.
  intros (G1&G2&G3). assert (M : index_max < 2 ^ 31) by (cbv; reflexivity). split.
  - intros b. unfold BT, create. cbn [blk kept_in by_age weighed_in by_weight flat_map]. split; cbn [simple prior givenpos pratio pcount tratio tcount new_block].
    + split.
      * exists (els cfg). cbn [length]. unfold cvec_new. cbn [length]. rewrite map_length, seq_length. split; [reflexivity|]. split; [lia|]. split; [lia|]. lia.
      * reflexivity.
      * lia.
      * intros k e H. destruct k; discriminate.
    + exists []. reflexivity.
    + reflexivity.
    + exists []. apply q_new. exact G3.
    + reflexivity.
    + lia.
    + reflexivity.
    + lia.
    + intros c [].
  - cbn. lia.
  - exists 3, []. unfold HI. cbn [create hyper]. split; [reflexivity|]. split; [lia|]. split.
    + split.
      * exists (hels cfg). unfold new_hyper. cbn [length]. rewrite map_length, seq_length. split; [reflexivity|]. split; [lia|]. split; [lia|]. lia.
      * reflexivity.
      * lia.
      * intros k e H. destruct k; discriminate.
    + split; [reflexivity|]. split; [reflexivity|]. cbn. lia.
Qed.

(** Blocks found empty change nothing that matters. *)
Lemma idle_inv cfg tr l s s' : idles l s s' -> B4 (cur s) -> Inv cfg tr s ->
  Inv cfg tr s' /\ (forall k, tcount (blk s' k) = tcount (blk s k)) /\ hyper s' = hyper s /\
  (forall k, In k l -> kept_in cfg k tr = by_age k tr) /\ (forall k, ~ In k l -> blk s' k = blk s k) /\ B4 (cur s').
Proof.
  intros H. induction H as [s|s x l s' E H IH]; intros HB I.
  - split; [exact I|]. split; [reflexivity|]. split; [reflexivity|]. split; [intros k []|]. split; [reflexivity|exact HB].
  - destruct I as [IB IC IH0].
    assert (P : kept_in cfg (cur s) tr = by_age (cur s) tr /\ BT cfg tr (cur s) x /\ tcount x = tcount (blk s (cur s))).
    { destruct (pick_block_ok _ _ _ _ _ _ _ (IB (cur s))) as [(x'&E'&HK&B'&T')|[(c&x'&w&E'&_)|(c&x'&r&E'&_)]]; rewrite E in E'; inversion E'; subst. auto. }
    destruct P as (PK&PB&PT).
    set (s1 := set_cur (set_blk s (cur s) x) (nx (cur s))) in *.
    assert (I1 : Inv cfg tr s1).
    { split.
      - intros b. unfold s1. cbn. destruct (Z.eqb_spec b (cur s)) as [->|N]; [exact PB|apply IB].
      - unfold s1. cbn. unfold nx. destruct HB as [-> |[-> |[-> | ->]]]; cbn; lia.
      - exact IH0. }
    assert (HB1 : B4 (cur s1)) by (unfold s1, B4; cbn; unfold nx; destruct HB as [-> |[-> |[-> | ->]]]; cbn; lia).
    destruct (IH HB1 I1) as (A1&A2&A3&A4&A5&A6). split; [exact A1|]. split.
    { intros k. rewrite A2. unfold s1. cbn. destruct (Z.eqb_spec k (cur s)) as [->|N]; [exact PT|reflexivity]. }
    split; [exact A3|]. split.
    { intros k [<-|Hk]; [exact PK|apply A4; exact Hk]. }
    split; [|exact A6].
    intros k Hk. rewrite A5; [|intros X; apply Hk; right; exact X]. unfold s1. cbn. destruct (Z.eqb_spec k (cur s)) as [->|N]; [|reflexivity].
    exfalso. apply Hk. left. reflexivity.
Qed.

Lemma hyper_pick tr v pos rest : HI tr v pos rest ->
  (rest = [] /\ pick_hyper v = Some (None, v)) \/
  (exists c r v' pos', rest = c :: r /\ pick_hyper v = Some (Some c, v') /\ HI (tr ++ [Chosen Hyper c]) v' pos' r).
Proof.
  intros (R2&Hp&V&HK&H3&HB). unfold pick_hyper. rewrite R2, (cv_next _ _ _ V).
  destruct rest as [|c r].
  - left. split; [reflexivity|]. rewrite (H3 eq_refl). reflexivity.
  - right. cbn [length]. destruct (Z.leb_spec (pos + Z.of_nat (S (length r))) 3); [lia|].
    destruct (Z.leb_spec (pos + Z.of_nat (S (length r))) pos); [lia|]. cbn [orb].
    assert (Rp : rd v pos = Some c). { replace pos with (pos + Z.of_nat 0) by lia. apply (cv_at _ _ _ V). reflexivity. } rewrite Rp.
    destruct (cv_len _ _ _ V) as (n&L0&L1&L2&L3). cbn [length] in L3.
    assert (T1 : kept_hyper (tr ++ [Chosen Hyper c]) = by_hyper (tr ++ [Chosen Hyper c]) ++ r).
    { unfold kept_hyper, by_hyper. rewrite !flat_map_app. cbn. rewrite app_nil_r, <- app_assoc. cbn. exact HK. }
    assert (T2 : length (kept_hyper (tr ++ [Chosen Hyper c])) = length (kept_hyper tr)).
    { unfold kept_hyper. rewrite flat_map_app. cbn. rewrite app_nil_r. reflexivity. }
    cbn [length] in HB.
    destruct (Z.leb_spec (pos + Z.of_nat (S (length r))) (pos + 1)) as [L|L].
    + assert (r = []) as -> by (destruct r; cbn [length] in *; [reflexivity|lia]).
      destruct (wr_ok v 1 3) as (v1&E1&Le1&Ra1&O1); [lia|]. rewrite E1.
      destruct (wr_ok v1 2 3) as (v2&E2&Le2&Ra2&O2); [lia|]. rewrite E2.
      exists c, [], v2, 3. split; [reflexivity|]. split; [reflexivity|]. split; [exact Ra2|]. split; [lia|]. split.
      * split.
        -- exists n. cbn [length]. rewrite Le2, Le1. split; [rewrite O2, O1 by lia; exact L0|]. split; [exact L1|]. split; [exact L2|]. lia.
        -- rewrite O2 by lia. rewrite Ra1. reflexivity.
        -- lia.
        -- intros k e X. destruct k; discriminate.
      * split; [exact T1|]. split; [reflexivity|]. rewrite T2. cbn [length]. lia.
    + destruct (wr_ok v 2 (pos + 1)) as (v2&E2&Le2&Ra2&O2); [lia|]. rewrite E2.
      exists c, r, v2, (pos + 1). split; [reflexivity|]. split; [reflexivity|]. split; [exact Ra2|]. split; [lia|]. split.
      * split.
        -- exists n. rewrite Le2. split; [rewrite O2 by lia; exact L0|]. split; [exact L1|]. split; [exact L2|]. lia.
        -- rewrite O2 by lia. rewrite (cv_next _ _ _ V). cbn [length]. f_equal. lia.
        -- lia.
        -- intros k e X. rewrite O2 by lia. replace (pos + 1 + Z.of_nat k) with (pos + Z.of_nat (S k)) by lia. apply (cv_at _ _ _ V). exact X.
      * split; [exact T1|]. split; [intros ->; cbn [length] in L; lia|]. rewrite T2. lia.
Qed.

(** What a choice can do. *)
Lemma select_char cfg tr s : Inv cfg tr s ->
  (exists c v pos r, select s = Some (Some (Hyper, c), set_hyper s v) /\ HI (tr ++ [Chosen Hyper c]) v pos r) \/
  ((exists pos, HI tr (hyper s) pos []) /\
   ((exists s', select s = Some (None, s') /\ Inv cfg tr s' /\ forall k, B4 k -> kept_in cfg k tr = by_age k tr) \/
    (exists l s0 s1 light c x, s0 = set_cur s (cur4 s) /\ idles l s0 s1 /\ B4 (cur s0) /\ Inv cfg tr s0 /\ B4 (cur s1) /\ ~ In (cur s1) l /\
       pick_block (blk s1 (cur s1)) = Some (Some (light, c), x) /\
       select s = Some (Some (if light then Light (cur s1) else Oldest (cur s1), c), after_hit s1 x)))).
Proof.
  intros I. pose proof I as [IB IC (pos&rest&IH)]. unfold select.
  destruct (hyper_pick _ _ _ _ IH) as [(->&E)|(c&r&v'&pos'&->&E&H)]; rewrite E.
  2: { left. exists c, v', pos', r. split; [reflexivity|exact H]. }
  right. split; [exists pos; exact IH|].
  set (s0 := set_cur s (cur4 s)).
  assert (E0 : pick_queues (set_hyper s (hyper s)) = pick_queues s0).
  { unfold pick_queues, s0, cur4. cbn. destruct (Z.leb_spec 4 (cur s)) as [L|L]; cbn; [reflexivity|].
    destruct (Z.leb_spec 4 (cur s)) as [L'|L']; [lia|]. reflexivity. }
  rewrite E0.
  assert (B0 : B4 (cur s0)) by (unfold s0, cur4, B4; cbn; destruct (Z.leb_spec 4 (cur s)); lia).
  assert (I0 : Inv cfg tr s0).
  { split; [exact IB| |exists pos, []; exact IH]. unfold B4 in B0. lia. }
  destruct (loop_char s0 B0) as [(s'&E1&l&Hl&Ha)|(l&s1&light&c&x&Hl&Hb&Hn&Hp&E1)].
  - intros k. destruct (pick_block_ok _ _ _ _ _ _ _ (IB k)) as [(x'&E'&_)|[(c&x'&w&E'&_)|(c&x'&r&E'&_)]]; change (blk s0 k) with (blk s k); rewrite E'; discriminate.
  - left. rewrite E1. exists s'. split; [reflexivity|]. destruct (idle_inv cfg tr _ _ _ Hl B0 I0) as (A1&_&_&A4&_). split; [exact A1|].
    intros k Hk. apply A4. apply Ha. exact Hk.
  - right. rewrite E1. exists l, s0, s1, light, c, x. repeat (split; [first [reflexivity|assumption]|]). destruct light; reflexivity.
Qed.

Lemma hit_inv cfg tr s light c x : Inv cfg tr s -> B4 (cur s) -> pick_block (blk s (cur s)) = Some (Some (light, c), x) ->
  (exists pos, HI tr (hyper s) pos []) ->
  Inv cfg (tr ++ [Chosen (if light then Light (cur s) else Oldest (cur s)) c]) (after_hit s x).
Proof.
  intros [IB IC IH] HB E (pos&HH).
  set (e := Chosen (if light then Light (cur s) else Oldest (cur s)) c).
  assert (K1 : forall b, kept_in cfg b (tr ++ [e]) = kept_in cfg b tr).
  { intros b. unfold kept_in. rewrite flat_map_app. cbn. apply app_nil_r. }
  assert (K2 : forall b, weighed_in cfg b (tr ++ [e]) = weighed_in cfg b tr).
  { intros b. unfold weighed_in. rewrite flat_map_app. cbn. apply app_nil_r. }
  assert (K3 : forall b, by_age b (tr ++ [e]) = by_age b tr ++ if negb light && (cur s =? b) then [c] else []).
  { intros b. unfold by_age. rewrite flat_map_app. cbn. destruct light; cbn; [|destruct (cur s =? b); cbn]; reflexivity. }
  assert (K4 : forall b, by_weight b (tr ++ [e]) = by_weight b tr ++ if light && (cur s =? b) then [c] else []).
  { intros b. unfold by_weight. rewrite flat_map_app. cbn. destruct light; cbn; [destruct (cur s =? b); cbn|]; reflexivity. }
  assert (N : forall b, b <> cur s -> BT cfg (tr ++ [e]) b (blk s b)).
  { intros b Hb. unfold BT. rewrite K1, K2, K3, K4. destruct (Z.eqb_spec (cur s) b) as [X|_]; [congruence|]. rewrite !andb_false_r, !app_nil_r. apply IB. }
  assert (X : BT cfg (tr ++ [e]) (cur s) x /\ 0 <= tcount x).
  { unfold BT. rewrite K1, K2, K3, K4, Z.eqb_refl, !andb_true_r.
    destruct (pick_block_ok _ _ _ _ _ _ _ (IB (cur s))) as [(x'&E'&_)|[(c'&x'&w&E'&B'&T&_)|(c'&x'&r&E'&_&B'&T&_)]]; rewrite E in E'; inversion E'; subst; cbn [negb]; rewrite ?app_nil_r;
    (split; [exact B'|]); apply (bi_tcount _ _ _ _ _ _ _ B'). }
  destruct X as (X&Xt).
  assert (XT : forall t, 0 <= t -> BT cfg (tr ++ [e]) (cur s) (with_tcount x t)).
  { intros t Ht. destruct X as [X1 X2 X3 X4 X5 X6 X7 X8 X9]. split; assumption. }
  assert (HY : exists pos rest, HI (tr ++ [e]) (hyper s) pos rest).
  { exists pos, []. destruct HH as (A1&A2&A3&A4&A5&A6).
    assert (KH : kept_hyper (tr ++ [e]) = kept_hyper tr) by (unfold kept_hyper; rewrite flat_map_app; cbn; apply app_nil_r).
    assert (BH : by_hyper (tr ++ [e]) = by_hyper tr) by (unfold by_hyper; rewrite flat_map_app; cbn; destruct light; cbn; apply app_nil_r).
    split; [exact A1|]. split; [exact A2|]. split; [exact A3|]. rewrite KH, BH. split; [exact A4|]. split; [exact A5|exact A6]. }
  unfold after_hit. destruct (Z.leb_spec (tratio x) (tcount x)) as [L|L].
  - split.
    + intros b. cbn. destruct (Z.eqb_spec b (cur s)) as [->|Nb]; [apply XT; lia|apply N; exact Nb].
    + cbn. unfold B4 in HB. lia.
    + exact HY.
  - split.
    + intros b. cbn. destruct (Z.eqb_spec b (cur s)) as [->|Nb]; [apply XT; lia|apply N; exact Nb].
    + cbn. exact IC.
    + exact HY.
Qed.

Lemma fits_app tr tr2 : fits (tr ++ tr2) -> fits tr.
Proof. unfold fits. rewrite filter_app, app_length. lia. Qed.

Lemma push_inv cfg tr s c w ok1 ok2 junk1 junk2 s' : Inv cfg tr s -> addr c <> 0 -> fits (tr ++ [Kept c w]) ->
  push_cl cfg ok1 ok2 junk1 junk2 s c w = Some s' ->
  Inv cfg (tr ++ [Kept c w]) s' /\ cur s' = cur s /\
  (forall k, tcount (blk s' k) = tcount (blk s k) /\ pcount (blk s' k) = pcount (blk s k)).
Proof.
  intros [IB IC (pos&rest&IH)] Hc HF E. unfold push_cl in E.
  set (b0 := class (strat cfg) c) in *. set (e := Kept c w) in *.
  destruct (cvec_push ok1 junk1 (simple (blk s b0)) (addr c)) as [v| |] eqn:EV; try discriminate.
  destruct (if 0 <=? w then push ok2 junk2 (prior (blk s b0)) (addr c) w else Some (prior (blk s b0))) as [q|] eqn:EQ; [|discriminate].
  injection E as <-.
  assert (K1 : forall b, kept_in cfg b (tr ++ [e]) = kept_in cfg b tr ++ if b0 =? b then [addr c] else []).
  { intros b. unfold kept_in. rewrite flat_map_app. cbn. fold b0. rewrite app_nil_r. reflexivity. }
  assert (K2 : forall b, weighed_in cfg b (tr ++ [e]) = weighed_in cfg b tr ++ if (b0 =? b) && (0 <=? w) then [(Z.min w (maxp cfg), addr c)] else []).
  { intros b. unfold weighed_in. rewrite flat_map_app. cbn. fold b0. rewrite app_nil_r. reflexivity. }
  assert (K3 : forall b, by_age b (tr ++ [e]) = by_age b tr) by (intros b; unfold by_age; rewrite flat_map_app; cbn; apply app_nil_r).
  assert (K4 : forall b, by_weight b (tr ++ [e]) = by_weight b tr) by (intros b; unfold by_weight; rewrite flat_map_app; cbn; apply app_nil_r).
  split; [|split; [reflexivity|]].
  - split.
    + intros b. unfold BT. rewrite K1, K2, K3, K4. cbn. destruct (Z.eqb_spec b b0) as [->|Nb].
      * rewrite Z.eqb_refl. cbn [andb]. destruct (IB b0) as [V (r&R) HP (P&Q) Hr Hp Ht Htc NZ].
        split; cbn [simple prior givenpos pratio pcount tratio tcount]; try assumption.
        -- apply (cv_push _ _ _ ok1 junk1 (addr c) v V); [|exact EV]. pose proof (kept_in_le cfg b0 tr) as LE. apply fits_app in HF. unfold fits in HF. lia.
        -- exists (r ++ [addr c]). rewrite R, app_assoc. reflexivity.
        -- destruct (Z.leb_spec 0 w) as [L|L].
           ++ pose proof (q_push _ _ _ _ _ _ _ ok2 junk2 (addr c) w q Q Hc EQ) as Q2. unfold filed in Q2.
              destruct (Z.ltb_spec w 0); [lia|]. cbn [Z.eqb negb andb] in Q2. exists (P ++ [(Z.min w (maxp cfg), addr c)]). exact Q2.
           ++ injection EQ as <-. rewrite app_nil_r. exists P. exact Q.
        -- intros x Hx. apply in_app_or in Hx. destruct Hx as [Hx|[<-|[]]]; [apply NZ; exact Hx|exact Hc].
      * destruct (Z.eqb_spec b0 b) as [X|_]; [congruence|]. cbn [andb]. rewrite !app_nil_r. apply IB.
    + exact IC.
    + exists pos, rest. destruct IH as (A1&A2&A3&A4&A5&A6).
      assert (KH : kept_hyper (tr ++ [e]) = kept_hyper tr) by (unfold kept_hyper; rewrite flat_map_app; cbn; apply app_nil_r).
      assert (BH : by_hyper (tr ++ [e]) = by_hyper tr) by (unfold by_hyper; rewrite flat_map_app; cbn; apply app_nil_r).
      unfold HI. rewrite KH, BH. cbn [set_blk hyper]. repeat (split; [assumption|]). exact A6.
  - intros k. cbn. destruct (Z.eqb_spec k b0) as [->|Nk]; split; reflexivity.
Qed.

Lemma hyper_push_inv cfg tr s c ok junk s' : Inv cfg tr s -> fits (tr ++ [KeptHyper c]) -> push_hyper ok junk s c = Some s' ->
  Inv cfg (tr ++ [KeptHyper c]) s' /\ cur s' = cur s /\ blk s' = blk s.
Proof.
  intros [IB IC (pos&rest&IH)] HF E. unfold push_hyper in E. destruct (cvec_push ok junk (hyper s) c) as [v| |] eqn:EV; try discriminate. injection E as <-.
  split; [|split; reflexivity]. set (e := KeptHyper c) in *. split.
  - intros b. unfold BT.
    assert (K1 : kept_in cfg b (tr ++ [e]) = kept_in cfg b tr) by (unfold kept_in; rewrite flat_map_app; cbn; apply app_nil_r).
    assert (K2 : weighed_in cfg b (tr ++ [e]) = weighed_in cfg b tr) by (unfold weighed_in; rewrite flat_map_app; cbn; apply app_nil_r).
    assert (K3 : by_age b (tr ++ [e]) = by_age b tr) by (unfold by_age; rewrite flat_map_app; cbn; apply app_nil_r).
    assert (K4 : by_weight b (tr ++ [e]) = by_weight b tr) by (unfold by_weight; rewrite flat_map_app; cbn; apply app_nil_r).
    rewrite K1, K2, K3, K4. apply IB.
  - exact IC.
  - exists pos, (rest ++ [c]). destruct IH as (A1&A2&A3&A4&A5&A6). cbn [set_hyper hyper].
    assert (KH : kept_hyper (tr ++ [e]) = kept_hyper tr ++ [c]) by (unfold kept_hyper; rewrite flat_map_app; reflexivity).
    assert (BH : by_hyper (tr ++ [e]) = by_hyper tr) by (unfold by_hyper; rewrite flat_map_app; cbn; apply app_nil_r).
    destruct (cv_push _ _ _ ok junk c v A3) as (C1&C2); [|exact EV|].
    { pose proof (kept_hyper_le tr) as LE. apply fits_app in HF. unfold fits in HF. lia. }
    unfold HI. rewrite KH, BH.
    split.
    { destruct (Z.eq_dec pos 2) as [Z0|Z0]; [lia|]. rewrite C2 by lia. exact A1. }
    split; [exact A2|]. split; [exact C1|]. split; [rewrite A4, app_assoc; reflexivity|].
    split; [intros X; destruct rest; discriminate|]. rewrite !app_length. cbn [length]. lia.
Qed.
