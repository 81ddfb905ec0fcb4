From Coq Require Import List ZArith Bool Lia Permutation.
From Verif Require Import VecModel VecSpec VecProof QueueModel QueueSpec QueueProof PickModel PickSpec PickProof PickRun PickInv PickFair.
Import ListNotations.
Open Scope Z_scope.

Lemma in_kept cfg tr c w : In (Kept c w) tr -> In (addr c) (kept_in cfg (class (strat cfg) c) tr).
Proof. intros H. apply in_flat_map. exists (Kept c w). split; [exact H|]. cbn. rewrite Z.eqb_refl. left. reflexivity. Qed.
Lemma age_chosen b tr c : In c (by_age b tr) -> In c (chosen tr).
Proof.
  intros H. apply in_flat_map in H. destruct H as (e&He&H). apply in_flat_map. exists e. split; [exact He|].
  destruct e as [ | |[|k|k] d| ]; try (destruct H; fail). destruct (k =? b); [exact H|destruct H].
Qed.
Lemma hyper_chosen tr c : In c (by_hyper tr) -> In c (chosen tr).
Proof.
  intros H. apply in_flat_map in H. destruct H as (e&He&H). apply in_flat_map. exists e. split; [exact He|].
  destruct e as [ | |[|k|k] d| ]; try (destruct H; fail). exact H.
Qed.

Lemma dry cfg tr s s' : history cfg tr s -> fits tr -> step cfg s NoneLeft s' ->
  (forall c w, In (Kept c w) tr -> In (addr c) (chosen tr)) /\ (forall c, In (KeptHyper c) tr -> In c (chosen tr)).
Proof.
  intros H F S1. pose proof (history_inv _ _ _ H F) as I. inversion S1 as [| | |s'' E]; subst.
  destruct (select_char _ _ _ I) as [(c'&v&pos&r&E'&_)|((pos&HH)&[(s0&E'&_&N)|(l&s0&s1&light&c'&x&E0&Hl&B0&I0&B1&Hn&Hp&E')])]; rewrite E in E'; [discriminate| |discriminate].
  split.
  - intros c w Hc. apply (in_kept cfg) in Hc. rewrite (N _ (class_B4 _ _)) in Hc. apply (age_chosen _ _ _ Hc).
  - intros c Hc. destruct HH as (_&_&_&HK&_). rewrite app_nil_r in HK. apply hyper_chosen. rewrite <- HK. apply in_flat_map. exists (KeptHyper c). split; [exact Hc|left; reflexivity].
Qed.


Lemma select_defined cfg tr s : history cfg tr s -> fits tr -> exists r s', select s = Some (r, s').
Proof.
  intros H F. destruct (select_char _ _ _ (history_inv _ _ _ H F)) as [(c'&v&pos&r&E'&_)|(_&[(s0&E'&_&N)|(l&s0&s1&light&c'&x&_&_&_&_&_&_&_&E')])]; rewrite E'; eauto.
Qed.

Lemma sources cfg tr s b : history cfg tr s -> fits tr ->
  (exists rest, kept_in cfg b tr = by_age b tr ++ rest) /\
  (exists rest, Permutation (map snd (weighed_in cfg b tr)) (by_weight b tr ++ rest)) /\
  (exists rest, kept_hyper tr = by_hyper tr ++ rest).
Proof.
  intros H F. pose proof (history_inv _ _ _ H F) as I. destruct (iv_blk _ _ _ I b) as [_ R _ (P&Q) _ _ _ _ _]. split; [exact R|]. split.
  - exists (map snd P). pose proof (nothing_lost _ _ _ _ _ _ _ Q) as N. cbn in N. rewrite N. apply Permutation_app_tail. symmetry. apply Permutation_rev.
  - destruct (iv_hyp _ _ _ I) as (pos&rest&_&_&_&HK&_). exists rest. exact HK.
Qed.

Lemma lightest cfg tr s b c s' : history cfg tr s -> fits tr -> step cfg s (Chosen (Light b) c) s' ->
  exists w, In (w, c) (weighed_in cfg b tr) /\ forall w' c', In (w', c') (weighed_in cfg b tr) -> ~ In c' (by_weight b tr) -> w <= w'.
Proof.
  intros H F S1. pose proof (history_inv _ _ _ H F) as I. inversion S1 as [| |src d s'' E|]; subst.
  destruct (select_char _ _ _ I) as [(c'&v&pos&r&E'&_)|(_&[(s0&E'&_&N)|(l&s0&s1&light&c'&x&E0&Hl&B0&I0&B1&Hn&Hp&E')])]; rewrite E in E'; [discriminate|discriminate|].
  destruct light; [|discriminate]. injection E' as -> -> ->. destruct (idle_inv _ _ _ _ _ Hl B0 I0) as (I1&_).
  destruct (pick_block_ok _ _ _ _ _ _ _ (iv_blk _ _ _ I1 (cur s1))) as [(x'&E'&_)|[(c2&x'&w&E'&_&_&_&_&W1&W2)|(c2&x'&r&E'&_)]]; rewrite Hp in E'; inversion E'; subst.
  exists w. split; [exact W1|]. intros w' c' Hw Hn'. apply (W2 (w', c') Hw Hn').
Qed.

(** Turns. *)
Lemma step_away cfg tr s e s' t : Inv cfg tr s -> step cfg s e s' -> fits (tr ++ [e]) -> B4 t ->
  kept_in cfg t tr <> by_age t tr -> ~ from_class t e ->
  kept_in cfg t (tr ++ [e]) <> by_age t (tr ++ [e]) /\ away s' t + (if is_turn e then 1 else 0) <= away s t.
Proof.
  intros I H F Ht HK HE. pose proof (step_inv _ _ _ _ _ I H F) as I'.
  assert (NK : kept_in cfg t (tr ++ [e]) <> by_age t (tr ++ [e])).
  { destruct (bi_rest _ _ _ _ _ _ _ (iv_blk _ _ _ I t)) as ([|y rest]&HR); [rewrite app_nil_r in HR; contradiction|].
    unfold kept_in, by_age. rewrite !flat_map_app. fold (kept_in cfg t tr) (by_age t tr). rewrite HR, <- app_assoc.
    intros X. apply app_inv_head in X. destruct e as [ | |[|k|k] d| ]; cbn in X; try discriminate.
    cbn in HE. destruct (Z.eqb_spec k t); [contradiction|discriminate]. }
  split; [exact NK|].
  destruct H as [ci w ok1 ok2 j1 j2 s' Hc E|d ok j s' Hc E|src d s' E|s' E].
  - destruct (push_inv _ _ _ _ _ _ _ _ _ _ I Hc F E) as (_&C&T). cbn [is_turn].
    assert (W : away s' t = away s t). { unfold away, cur4. rewrite C. apply dist_ext. intros k. apply (inv_rem _ _ _ _ _ _ I I'). apply (T k). }
    lia.
  - destruct (hyper_push_inv _ _ _ _ _ _ _ I F E) as (_&C&T). cbn [is_turn].
    assert (W : away s' t = away s t). { unfold away, cur4. rewrite C. apply dist_ext. intros k. rewrite T. reflexivity. }
    lia.
  - destruct (select_char _ _ _ I) as [(d'&v&pos&r&E'&H)|(HH&[(s0&E'&_)|(l&s0&s1&light&d'&x&E0&Hl&B0&I0&B1&Hn&Hp&E')])]; rewrite E in E'; [|discriminate|].
    + injection E' as -> -> ->. change (away (set_hyper s v) t) with (away s t). cbn [is_turn]. lia.
    + injection E' as -> -> ->. destruct (idle_inv _ _ _ _ _ Hl B0 I0) as (I1&T1&_&Hk1&Hs1&_).
      assert (NT : ~ In t l) by (intros X; apply HK; apply Hk1; exact X).
      pose proof (idles_away cfg tr t l s0 s1 Hl B0 Ht NT I0) as AW.
      assert (AS : dist 4 s0 (cur s0) t = away s t). { unfold away. rewrite E0. cbn [set_cur cur]. apply dist_ext. reflexivity. }
      rewrite AS in AW.
      assert (Nt : cur s1 <> t) by (intros X; apply HE; destruct light; exact X).
      assert (TURN : is_turn (Chosen (if light then Light (cur s1) else Oldest (cur s1)) d') = true) by (destruct light; reflexivity). rewrite TURN.
      assert (XX : tcount x = tcount (blk s1 (cur s1)) + 1 /\ tratio x = tratio (blk s1 (cur s1))).
      { rewrite (bi_tratio _ _ _ _ _ _ _ (iv_blk _ _ _ I1 (cur s1))).
        destruct (pick_block_ok _ _ _ _ _ _ _ (iv_blk _ _ _ I1 (cur s1))) as [(x'&E'&_)|[(c'&x'&w&E'&Bx&Tx&_)|(c'&x'&r&E'&_&Bx&Tx&_)]]; rewrite Hp in E'; inversion E'; subst x'; split; [exact Tx|apply (bi_tratio _ _ _ _ _ _ _ Bx)|exact Tx|apply (bi_tratio _ _ _ _ _ _ _ Bx)]. }
      pose proof (hit_away s1 x t B1 Ht Nt (proj1 XX) (proj2 XX)). lia.
  - exfalso. destruct (select_char _ _ _ I) as [(c'&v&pos&r&E'&H)|(HH&[(s0&E'&_&N)|(l&s0&s1&light&c'&x&E0&Hl&B0&I0&B1&Hn&Hp&E')])]; rewrite E in E'; [discriminate| |discriminate].
    apply HK. apply N. exact Ht.
Qed.
Lemma turn_bound cfg t : B4 t -> forall tr2 tr s s', Inv cfg tr s -> steps cfg s tr2 s' -> fits (tr ++ tr2) ->
  kept_in cfg t tr <> by_age t tr -> (forall e, In e tr2 -> ~ from_class t e) -> turns tr2 <= away s t.
Proof.
  intros Ht. induction tr2 as [|e tr2 IH]; intros tr s s' I H F HK HN; inversion H; subst.
  - unfold turns. cbn [filter length]. apply dist_pos.
  - assert (AP : tr ++ e :: tr2 = (tr ++ [e]) ++ tr2) by (rewrite <- app_assoc; reflexivity). rewrite AP in F.
    match goal with Hs : step cfg s e ?z, Hr : steps cfg ?z tr2 s' |- _ =>
      destruct (step_away cfg tr s e z t I Hs (fits_app _ _ F) Ht HK (HN e (or_introl eq_refl))) as (HK'&HB);
      assert (L := IH (tr ++ [e]) z s' (step_inv _ _ _ _ _ I Hs (fits_app _ _ F)) Hr F HK') end.
    rewrite turns_cons. specialize (L (fun y Hy => HN y (or_intror Hy))). lia.
Qed.
Lemma turn cfg tr s c w tr2 s2 : history cfg tr s -> In (Kept c w) tr -> ~ In (addr c) (chosen tr) -> steps cfg s tr2 s2 -> fits (tr ++ tr2) ->
  9 <= turns tr2 -> exists e, In e tr2 /\ from_class (class (strat cfg) c) e.
Proof.
  intros H Hc Hn S2 F HT. set (t := class (strat cfg) c).
  assert (D : forall e, {from_class t e} + {~ from_class t e}).
  { intros [ | |[|k|k] d| ]; cbn; first [apply Z.eq_dec|right; intros []]. }
  destruct (Exists_dec (from_class t) tr2 D) as [X|X]; [apply Exists_exists in X; exact X|exfalso].
  pose proof (history_inv _ _ _ H (fits_app _ _ F)) as I.
  assert (HK : kept_in cfg t tr <> by_age t tr). { intros Y. apply Hn. apply (age_chosen t). rewrite <- Y. apply (in_kept cfg tr c w Hc). }
  pose proof (turn_bound cfg t (class_B4 _ _) tr2 tr s s2 I S2 F HK) as L.
  assert (HN : forall e, In e tr2 -> ~ from_class t e) by (intros e He Hf; apply X; apply Exists_exists; exists e; auto).
  specialize (L HN). pose proof (away_le _ _ _ t I (class_B4 _ _)). lia.
Qed.

(** Running a list of commands. *)
Inductive cmd := CKeep (c : cinfo) (w : Z) | CHyper (c : Z) | CSelect.
Definition exec1 (cfg : config) (s : sel) (x : cmd) : option (event * sel) :=
  match x with
  | CKeep c w => if addr c =? 0 then None else
                 match push_cl cfg true true (fun _ => 0) (fun _ => 0) s c w with Some s => Some (Kept c w, s) | None => None end
  | CHyper c => if c =? 0 then None else match push_hyper true (fun _ => 0) s c with Some s => Some (KeptHyper c, s) | None => None end
  | CSelect => match select s with Some (Some (src, c), s) => Some (Chosen src c, s) | Some (None, s) => Some (NoneLeft, s) | None => None end
  end.
Fixpoint exec (cfg : config) (s : sel) (l : list cmd) : option (list event * sel) :=
  match l with
  | [] => Some ([], s)
  | x :: l => match exec1 cfg s x with
              | Some (e, s) => match exec cfg s l with Some (tr, s) => Some (e :: tr, s) | None => None end
              | None => None end
  end.
Lemma exec1_step cfg s x e s' : exec1 cfg s x = Some (e, s') -> step cfg s e s'.
Proof.
  destruct x as [c w|c|]; cbn.
  - destruct (Z.eqb_spec (addr c) 0); [discriminate|]. destruct (push_cl cfg true true (fun _ => 0) (fun _ => 0) s c w) eqn:E; [|discriminate]. intros X. injection X as <- <-. eapply st_kept; eauto.
  - destruct (Z.eqb_spec c 0); [discriminate|]. destruct (push_hyper true (fun _ => 0) s c) eqn:E; [|discriminate]. intros X. injection X as <- <-. eapply st_hyper; eauto.
  - destruct (select s) as [[[[src c]|] s0]|] eqn:E; [| |discriminate]; intros X; injection X as <- <-; [apply st_chosen|apply st_none]; exact E.
Qed.
Lemma exec_steps cfg : forall l s tr s', exec cfg s l = Some (tr, s') -> steps cfg s tr s'.
Proof.
  induction l as [|x l IH]; intros s tr s'; cbn; [intros X; injection X as <- <-; constructor|].
  destruct (exec1 cfg s x) as [[e s1]|] eqn:E; [|discriminate]. destruct (exec cfg s1 l) as [[tr1 s2]|] eqn:E2; [|discriminate].
  intros X. injection X as <- <-. econstructor; [apply (exec1_step _ _ _ _ _ E)|apply IH; exact E2].
Qed.
Lemma exec_history cfg l tr : good cfg -> option_map fst (exec cfg (create cfg (fun _ => 0)) l) = Some tr -> exists s, history cfg tr s.
Proof.
  intros G E. destruct (exec cfg (create cfg (fun _ => 0)) l) as [[tr' s]|] eqn:X; [|discriminate]. cbn in E. injection E as ->.
  exists s. split; [exact G|]. exists (fun _ => 0). apply (exec_steps _ _ _ _ _ X).
Qed.

(** Partial hyperresolvents always come first. *)
Lemma hyper_round cfg tr s d : Inv cfg tr s -> (exists pos, HI tr (hyper s) pos []) -> d <> 0 -> fits (tr ++ [KeptHyper d]) ->
  exists s', steps cfg s [KeptHyper d; Chosen Hyper d] s' /\ exists pos, HI (tr ++ [KeptHyper d; Chosen Hyper d]) (hyper s') pos [].
Proof.
  intros I (pos&HH) Hd F. destruct HH as (A1&A2&A3&A4&A5&A6).
  assert (PO : pos + Z.of_nat (length (@nil Z)) < index_max).
  { rewrite (A5 eq_refl). cbv. reflexivity. }
  destruct (cv_push_ok _ _ _ (fun _ => 0) d A3 PO) as (v&EV).
  assert (E1 : push_hyper true (fun _ => 0) s d = Some (set_hyper s v)) by (unfold push_hyper; rewrite EV; reflexivity).
  assert (S1 : step cfg s (KeptHyper d) (set_hyper s v)) by (eapply st_hyper; eauto).
  pose proof (step_inv _ _ _ _ _ I S1 F) as I1.
  destruct (cv_push _ _ _ _ _ _ _ A3 PO EV) as (C1&C2).
  destruct (iv_hyp _ _ _ I1) as (pos1&rest1&HH1). cbn [set_hyper hyper] in HH1.
  assert (R1 : rest1 = [d]).
  { destruct HH1 as (_&_&_&K1&_). unfold kept_hyper, by_hyper in K1. rewrite !flat_map_app in K1. cbn in K1. rewrite app_nil_r in K1.
    fold (kept_hyper tr) in K1. fold (by_hyper tr) in K1. rewrite A4, app_nil_r in K1. apply app_inv_head in K1. symmetry. exact K1. }
  subst rest1.
  destruct (hyper_pick _ _ _ _ HH1) as [(X&_)|(c&r&v'&pos'&X&E2&H2)]; [discriminate|]. injection X as <- <-.
  exists (set_hyper (set_hyper s v) v'). split.
  - econstructor; [exact S1|]. econstructor; [|constructor]. apply st_chosen. unfold select. cbn [set_hyper hyper]. rewrite E2. reflexivity.
  - exists pos'. replace (tr ++ [KeptHyper d; Chosen Hyper d]) with ((tr ++ [KeptHyper d]) ++ [Chosen Hyper d]) by (rewrite <- app_assoc; reflexivity). exact H2.
Qed.
Fixpoint rounds (d : Z) (n : nat) : list event := match n with O => [] | S n => KeptHyper d :: Chosen Hyper d :: rounds d n end.
Lemma rounds_chosen d n : chosen (rounds d n) = repeat d n.
Proof. induction n; cbn; [reflexivity|]. f_equal. exact IHn. Qed.
Lemma rounds_run cfg d : d <> 0 -> forall n tr s, Inv cfg tr s -> (exists pos, HI tr (hyper s) pos []) -> fits (tr ++ rounds d n) ->
  exists s', steps cfg s (rounds d n) s'.
Proof.
  intros Hd. induction n as [|n IH]; intros tr s I HH F; cbn; [exists s; constructor|]. cbn [rounds] in F.
  assert (A1 : tr ++ KeptHyper d :: Chosen Hyper d :: rounds d n = (tr ++ [KeptHyper d]) ++ Chosen Hyper d :: rounds d n) by (rewrite <- app_assoc; reflexivity).
  assert (A2 : tr ++ KeptHyper d :: Chosen Hyper d :: rounds d n = (tr ++ [KeptHyper d; Chosen Hyper d]) ++ rounds d n) by (rewrite <- app_assoc; reflexivity).
  destruct (hyper_round cfg tr s d I HH Hd) as (s1&S1&H1); [rewrite A1 in F; apply (fits_app _ _ F)|]. rewrite A2 in F.
  destruct (IH _ s1 (steps_inv _ _ _ _ _ I S1 (fits_app _ _ F)) H1 F) as (s2&S2).
  exists s2. change (KeptHyper d :: Chosen Hyper d :: rounds d n) with ([KeptHyper d; Chosen Hyper d] ++ rounds d n). eapply steps_app; eauto.
Qed.

(** How often a clause is chosen. *)
Definition cnt (l : list Z) (c : Z) : nat := count_occ Z.eq_dec l c.
Definition sum4 (f : Z -> nat) : nat := (f 0%Z + f 1%Z + f 2%Z + f 3%Z)%nat.
Definition src_ok (e : event) : Prop := match e with Chosen (Light k) _ => B4 k | Chosen (Oldest k) _ => B4 k | _ => True end.
Lemma cnt_app l m c : cnt (l ++ m) c = (cnt l c + cnt m c)%nat.
Proof. apply count_occ_app. Qed.
Lemma cnt_chosen c tr : Forall src_ok tr -> cnt (chosen tr) c = (cnt (by_hyper tr) c + sum4 (fun b => cnt (by_age b tr) c + cnt (by_weight b tr) c))%nat.
Proof.
  unfold sum4, chosen, by_hyper, by_age, by_weight. induction 1 as [|e tr He _ IH]; [reflexivity|]. cbn [flat_map]. rewrite !cnt_app, IH.
  destruct e as [ | |[|k|k] d| ]; cbn [src_ok] in He; try (cbn; lia); destruct He as [-> |[-> |[-> | ->]]]; cbn; destruct (Z.eq_dec d c); lia.
Qed.
Lemma cnt_kept cfg c tr : cnt (kept_all tr) c = sum4 (fun b => cnt (kept_in cfg b tr) c).
Proof.
  unfold sum4, kept_all, kept_in. induction tr as [|e tr IH]; [reflexivity|]. cbn [flat_map]. rewrite !cnt_app, IH.
  destruct e as [ci w| | | ]; try (cbn; lia). destruct (class_B4 (strat cfg) ci) as [-> |[-> |[-> | ->]]]; cbn; destruct (Z.eq_dec (addr ci) c); lia.
Qed.
Lemma cnt_weighed cfg c b tr : (cnt (map snd (weighed_in cfg b tr)) c <= cnt (kept_in cfg b tr) c)%nat.
Proof.
  unfold weighed_in, kept_in. induction tr as [|e tr IH]; [cbn; lia|]. cbn [flat_map]. rewrite map_app, !cnt_app.
  destruct e as [ci w| | | ]; try (cbn; lia). destruct (class (strat cfg) ci =? b), (0 <=? w); cbn; destruct (Z.eq_dec (addr ci) c); lia.
Qed.
Lemma steps_src cfg : forall tr2 tr s s', Inv cfg tr s -> steps cfg s tr2 s' -> fits (tr ++ tr2) -> Forall src_ok tr2.
Proof.
  induction tr2 as [|e tr2 IH]; intros tr s s' I H F; [constructor|]. inversion H; subst.
  assert (AP : tr ++ e :: tr2 = (tr ++ [e]) ++ tr2) by (rewrite <- app_assoc; reflexivity). rewrite AP in F.
  match goal with Hs : step cfg s e ?z, Hr : steps cfg ?z tr2 s' |- _ => constructor; [|apply (IH (tr ++ [e]) z s' (step_inv _ _ _ _ _ I Hs (fits_app _ _ F)) Hr F)]; destruct Hs as [ | |src d z E| ]; cbn [src_ok]; try exact Logic.I end.
  destruct (select_char _ _ _ I) as [(c'&v&pos&r&E'&_)|(_&[(s0&E'&_&N)|(l&s0&s4&light&c'&x&E0&Hl&B0&I0&B1&Hn&Hp&E')])]; rewrite E in E'; [|discriminate|].
  - injection E' as -> _ _. exact Logic.I.
  - injection E' as -> _ _. destruct light; exact B1.
Qed.
Lemma twice cfg tr s c : history cfg tr s -> fits tr -> (cnt (chosen tr) c <= 2 * cnt (kept_all tr) c + cnt (kept_hyper tr) c)%nat.
Proof.
  intros H F. pose proof H as (G&j&S1). pose proof (steps_src cfg tr [] _ _ (new_inv_pick cfg j G) S1 F) as SO.
  rewrite (cnt_chosen c tr SO), (cnt_kept cfg c tr). unfold sum4.
  assert (A : forall b, (cnt (by_age b tr) c + cnt (by_weight b tr) c <= 2 * cnt (kept_in cfg b tr) c)%nat).
  { intros b. destruct (sources cfg tr s b H F) as ((r1&E1)&(r2&E2)&_).
    assert (X1 : (cnt (by_age b tr) c <= cnt (kept_in cfg b tr) c)%nat) by (rewrite E1, cnt_app; lia).
    assert (X2 : (cnt (by_weight b tr) c <= cnt (map snd (weighed_in cfg b tr)) c)%nat).
    { unfold cnt. rewrite (proj1 (Permutation_count_occ Z.eq_dec _ _) E2 c). rewrite count_occ_app. lia. }
    pose proof (cnt_weighed cfg c b tr). lia. }
  destruct (sources cfg tr s 0 H F) as (_&_&(r3&E3)).
  assert (X3 : (cnt (by_hyper tr) c <= cnt (kept_hyper tr) c)%nat) by (rewrite E3, cnt_app; lia).
  pose proof (A 0). pose proof (A 1). pose proof (A 2). pose proof (A 3). lia.
Qed.
