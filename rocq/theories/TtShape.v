(** The T-tree index: rotations and the upward walks. *)
From Coq Require Import List ZArith Bool Lia.
From Verif Require Import TtModel TtSpec TtProof.
Import ListNotations.
Open Scope Z_scope.

Section S.
Context {K : Type}.
Variable key : Z -> K.
Implicit Types (t l r u : tree K).
Notation field := (field K key). Notation rotate := (rotate K key).
Notation rebal := (rebal K key). Notation rebal_step := (rebal_step K key). Notation retrace := (retrace K key). Notation grow_step := (grow_step K key).

Definition last_error (l : list Z) : option Z := nth_error l (length l - 1).
Record wfc (c : cell K) : Prop := {
  w_ne : els c <> []; w_sz : (length (els c) <= node_size)%nat;
  w_mn : mn c = field (hd_error (els c)); w_mx : mx c = field (last_error (els c)) }.
Definition sim (cs cs' : list (cell K)) : Prop :=
  map cid cs = map cid cs' /\ flat cs = flat cs' /\ (Forall wfc cs -> Forall wfc cs').
Lemma sim_refl cs : sim cs cs.
Proof. repeat split; auto. Qed.
Lemma sim_trans (a b c : list (cell K)) : sim a b -> sim b c -> sim a c.
Proof. intros (A & B & C) (D & F & G). split; [congruence|]. split; [congruence|auto]. Qed.
Lemma flat_app (a b : list (cell K)) : flat (a ++ b) = flat a ++ flat b.
Proof. apply flat_map_app. Qed.
Lemma sim_app (a b : list (cell K)) a' b' : sim a a' -> sim b b' -> sim (a ++ b) (a' ++ b').
Proof.
  intros (A & B & C) (D & F & G). split; [rewrite !map_app; congruence|]. split; [rewrite !flat_app; congruence|].
  rewrite !Forall_app. tauto.
Qed.
Lemma sim_cons c (a a' : list (cell K)) : sim a a' -> sim (c :: a) (c :: a').
Proof. intro H. apply (sim_app [c] a [c] a'); [apply sim_refl|exact H]. Qed.
Lemma sim_node (a a' : list (cell K)) c (b b' : list (cell K)) : sim a a' -> sim b b' -> sim (a ++ c :: b) (a' ++ c :: b').
Proof. intros. apply sim_app; [assumption|now apply sim_cons]. Qed.

Lemma last_app (l : list Z) x : last_error (l ++ [x]) = Some x.
Proof. unfold last_error. rewrite app_length, nth_error_app2; cbn [length]; [|lia]. replace (length l + 1 - 1 - length l)%nat with 0%nat by lia. reflexivity. Qed.
Lemma lone_l b e el er : lone_leaf K e b el er = true -> el = E /\ er = E /\
  exists b0 bs e0, els b = b0 :: bs /\ els e = [e0] /\ length bs = 7%nat.
Proof.
  unfold lone_leaf. intro H. apply andb_prop in H. destruct H as [H H4]. apply andb_prop in H. destruct H as [H H3]. apply andb_prop in H. destruct H as [H1 H2].
  apply Nat.eqb_eq in H1, H4. destruct el; [|discriminate]. destruct er; [|discriminate]. split; [reflexivity|]. split; [reflexivity|].
  destruct (els b) as [|b0 bs]; [discriminate|]. destruct (els e) as [|e0 [|]]; try discriminate. exists b0, bs, e0. injection H4 as H4. auto.
Qed.
Lemma transfer_l b e (A : list (cell K)) b0 bs e0 : els b = b0 :: bs -> els e = [e0] -> length bs = 7%nat ->
  sim [b; e] [{| cid := cid b; els := firstn 1 (els b); mn := mn b; mx := mn b |};
              {| cid := cid e; els := tl (els b) ++ els e; mn := field (hd_error (tl (els b) ++ els e)); mx := mx e |}].
Proof.
  intros Hb He Hl. split; [reflexivity|]. split; [unfold flat; cbn; rewrite Hb, He; cbn; now rewrite app_nil_r|].
  intro H. inversion_clear H as [|? ? W1 H']. inversion_clear H' as [|? ? W2 _]. constructor; [|constructor; [|constructor]].
  - destruct W1 as [A1 A2 A3 A4]. rewrite Hb in *. constructor; cbn [els mn mx]; [discriminate|cbn; unfold node_size; lia|exact A3|exact A3].
  - destruct W2 as [A1 A2 A3 A4]. rewrite Hb, He in *. cbn [tl] in *. constructor; cbn [els mn mx].
    + destruct bs; discriminate.
    + rewrite app_length. cbn. unfold node_size. lia.
    + reflexivity.
    + rewrite A4, last_app. reflexivity.
Qed.
Lemma transfer_r b e (A : list (cell K)) b0 bs e0 : els b = b0 :: bs -> els e = [e0] -> length bs = 7%nat ->
  sim [e; b] [{| cid := cid e; els := els e ++ removelast (els b); mn := mn e; mx := field (nth_error (els e ++ removelast (els b)) (length (els e ++ removelast (els b)) - 1)) |};
              {| cid := cid b; els := skipn (length (els b) - 1) (els b); mn := mx b; mx := mx b |}].
Proof.
  intros Hb He Hl. assert (Hne : els b <> []) by (rewrite Hb; discriminate).
  destruct (exists_last Hne) as (B & z & Ez).
  assert (LB : length B = 7%nat). { pose proof (f_equal (@length Z) Ez) as Q. rewrite Hb, app_length in Q. cbn in Q. lia. }
  assert (Es : skipn (length (els b) - 1) (els b) = [z]).
  { rewrite Ez, app_length. cbn [length]. rewrite skipn_app. replace (length B + 1 - 1 - length B)%nat with 0%nat by lia.
    rewrite skipn_all2 by lia. reflexivity. }
  assert (Er : removelast (els b) = B) by (rewrite Ez; apply removelast_last).
  split; [reflexivity|]. split; [unfold flat; cbn [flat_map els]; rewrite Es, Er, Ez, He; cbn; now rewrite app_nil_r|].
  intro H. inversion_clear H as [|? ? W1 H']. inversion_clear H' as [|? ? W2 _]. constructor; [|constructor; [|constructor]].
  - destruct W1 as [A1 A2 A3 A4]. rewrite He, Er in *. constructor; cbn [els mn mx]; [discriminate|cbn; unfold node_size; lia|exact A3|reflexivity].
  - destruct W2 as [A1 A2 A3 A4]. rewrite Es. assert (L : mx b = field (Some z)) by (rewrite A4, Ez, last_app; reflexivity).
    constructor; cbn [els mn mx]; [discriminate|cbn; unfold node_size; lia|exact L|exact L].
Qed.

(* ---- rotations ---- *)
Definition even t : bool := match t with E => false | N _ lh rh _ _ => lh =? rh end.
Lemma rotate_ok c l r : avl l -> avl r -> levels l - levels r = 2 \/ levels l - levels r = -2 ->
  exists d dl dr l' r', rotate (N c (levels l) (levels r) l r) = Some (N d dl dr l' r') /\ avl (N d dl dr l' r') /\
    sim (cells l ++ c :: cells r) (cells (N d dl dr l' r')) /\
    levels (N d dl dr l' r') = Z.max (levels l) (levels r) + (if even (if levels r <? levels l then l else r) then 1 else 0).
Proof.
  intros Al Ar Hd. cbn [TtModel.rotate]. destruct (Z.ltb_spec (levels r) (levels l)) as [Hlt|Hge].
  - destruct l as [|b blh brh bl br]; [cbn [levels] in *; pose proof (levels_nonneg r); lia|].
    pose proof Al as Al0. cbn [avl] in Al. destruct Al as (-> & -> & Bal & Abl & Abr). cbn [levels] in Hd, Hlt |- *. cbn [even].
    destruct (Z.leb_spec (levels br) (levels bl)) as [Hle|Hgt].
    + do 5 eexists. split; [reflexivity|]. split; [cbn [avl levels]; repeat split; auto; lia|]. split; [cbn [cells]; rewrite <- ?app_assoc; apply sim_refl|].
      cbn [levels]. destruct (Z.eqb_spec (levels bl) (levels br)); lia.
    + destruct br as [|e elh erh el er]; [cbn [levels] in *; pose proof (levels_nonneg bl); lia|]. cbn [avl] in Abr. destruct Abr as (-> & -> & Be & Ael & Aer).
      cbn [levels] in *. destruct (lone_leaf K e b el er) eqn:El.
      * destruct (lone_l _ _ _ _ El) as (-> & -> & b0 & bs & e0 & Hb & He & Hlen). cbn [levels] in *.
        do 5 eexists. split; [reflexivity|]. split; [cbn [avl levels]; repeat split; auto; lia|]. split.
        -- cbn [cells]. rewrite <- ?app_assoc. cbn [List.app]. apply sim_app; [apply sim_refl|]. 
           apply (sim_app [b; e] (c :: cells r) [_; _] (c :: cells r)); [eapply transfer_l; eauto|apply sim_refl]. exact [].
        -- cbn [levels]. destruct (Z.eqb_spec (levels bl) (1 + Z.max 0 0)); lia.
      * do 5 eexists. split; [reflexivity|]. split; [cbn [avl levels]; repeat split; auto; lia|]. split.
        -- cbn [cells]. rewrite <- ?app_assoc. cbn [List.app]. rewrite <- ?app_assoc. cbn [List.app]. rewrite <- ?app_assoc. apply sim_refl.
        -- cbn [levels]. destruct (Z.eqb_spec (levels bl) (1 + Z.max (levels el) (levels er))); lia.
  - destruct r as [|b blh brh bl br]; [cbn [levels] in *; pose proof (levels_nonneg l); lia|].
    cbn [avl] in Ar. destruct Ar as (-> & -> & Bal & Abl & Abr). cbn [levels] in Hd, Hge |- *. cbn [even].
    destruct (Z.ltb_spec (levels br) (levels bl)) as [Hle|Hgt].
    + destruct bl as [|e elh erh el er]; [cbn [levels] in *; pose proof (levels_nonneg br); lia|]. cbn [avl] in Abl. destruct Abl as (-> & -> & Be & Ael & Aer).
      cbn [levels] in *. destruct (lone_leaf K e b el er) eqn:El.
      * destruct (lone_l _ _ _ _ El) as (-> & -> & b0 & bs & e0 & Hb & He & Hlen). cbn [levels] in *.
        do 5 eexists. split; [reflexivity|]. split; [cbn [avl levels]; repeat split; auto; lia|]. split.
        -- cbn [cells]. rewrite <- ?app_assoc. cbn [List.app]. apply sim_app; [apply sim_refl|]. apply sim_cons.
           apply (sim_app [e; b] (cells br) [_; _] (cells br)); [eapply transfer_r; eauto|apply sim_refl]. exact [].
        -- cbn [levels]. destruct (Z.eqb_spec (1 + Z.max 0 0) (levels br)); lia.
      * do 5 eexists. split; [reflexivity|]. split; [cbn [avl levels]; repeat split; auto; lia|]. split.
        -- cbn [cells]. rewrite <- ?app_assoc. cbn [List.app]. rewrite <- ?app_assoc. cbn [List.app]. rewrite <- ?app_assoc. apply sim_refl.
        -- cbn [levels]. destruct (Z.eqb_spec (1 + Z.max (levels el) (levels er)) (levels br)); lia.
    + do 5 eexists. split; [reflexivity|]. split; [cbn [avl levels]; repeat split; auto; lia|]. split; [cbn [cells]; rewrite <- ?app_assoc; apply sim_refl|].
      cbn [levels]. destruct (Z.eqb_spec (levels bl) (levels br)); lia.
Qed.

(* ---- the walk after an insertion ---- *)
Lemma skewed_iff lh rh : skewed lh rh = true <-> 1 < lh - rh \/ lh - rh < -1.
Proof. unfold skewed. rewrite orb_true_iff, !Z.ltb_lt. reflexivity. Qed.
Lemma not_skewed lh rh : -1 <= lh - rh <= 1 -> skewed lh rh = false.
Proof. intro H. destruct (skewed lh rh) eqn:E1; [|reflexivity]. apply skewed_iff in E1. lia. Qed.
(* one step up: one side may have grown by one level *)
Lemma grow_ok c l r h : avl l -> avl r -> -2 <= levels l - levels r <= 2 -> levels l <> levels r -> h = Z.max (levels l) (levels r) ->
  (levels l - levels r = 2 -> even l = false) -> (levels l - levels r = -2 -> even r = false) ->
  exists t' st, grow_step (N c (levels l) (levels r) l r) = Some (t', st) /\ avl t' /\ sim (cells l ++ c :: cells r) (cells t') /\
   ((st = Grown /\ levels t' = 1 + h /\ even t' = false) \/ (st = Rotated /\ levels t' = h)).
Proof.
  intros Al Ar Hb Hne -> Hl Hr. cbn [TtModel.grow_step]. destruct (Z.eqb_spec (levels l - levels r) 0) as [|_]; [lia|].
  destruct (skewed (levels l) (levels r)) eqn:Es.
  - apply skewed_iff in Es. destruct (rotate_ok c l r Al Ar) as (d & dl & dr & l' & r' & E1 & E2 & E3 & E4); [lia|]. rewrite E1.
    do 2 eexists. split; [reflexivity|]. split; [exact E2|]. split; [exact E3|]. right. split; [reflexivity|]. rewrite E4.
    destruct (Z.ltb_spec (levels r) (levels l)); [rewrite Hl by lia; lia|rewrite Hr by lia; lia].
  - do 2 eexists. split; [reflexivity|]. split; [|split; [apply sim_refl|left; split; [reflexivity|split; [reflexivity|]]]].
    + cbn [avl]. repeat split; auto; destruct (Z_le_dec (-1) (levels l - levels r)), (Z_le_dec (levels l - levels r) 1); try lia;
        assert (skewed (levels l) (levels r) = true) by (apply skewed_iff; lia); congruence.
    + cbn [even]. apply Z.eqb_neq. exact Hne.
Qed.
Lemma retrace_notin i t : ~ In i (ids t) -> retrace i t = Some (t, NotHere).
Proof.
  induction t as [|c lh rh l IHl r IHr]; [reflexivity|]. rewrite ids_N, in_app_iff. cbn [TtModel.retrace In]. intro H.
  destruct (Z.eqb_spec (cid c) i); [tauto|]. rewrite IHl, IHr by tauto. reflexivity.
Qed.
Lemma retrace_ok left i f cf t : avl t -> NoDup (ids t) -> ~ In f (ids t) -> cid cf = f -> slot left i t ->
  exists t' st, retrace f (set_child K left i (N cf 0 0 E E) t) = Some (t', st) /\ st <> NotHere /\ avl t' /\
    sim (cells (set_child K left i (N cf 0 0 E E) t)) (cells t') /\
    ((st = Grown /\ levels t' = levels t + 1 /\ even t' = false) \/ ((st = Rotated \/ st = Ended) /\ levels t' = levels t)).
Proof.
  induction t as [|c lh rh l IHl r IHr]; intros Ha Hn Hf Hcf Hs; [destruct Hs as (c2 & a & b & l2 & r2 & H & _); discriminate|].
  pose proof (nd_N _ _ _ _ _ Hn) as (Hnl & Hnr & H1 & H2 & H3). pose proof (slot_in _ _ _ Hs) as Hi. rewrite ids_N, in_app_iff in Hi. cbn [In] in Hi.
  rewrite ids_N, in_app_iff in Hf. cbn [In] in Hf. cbn [avl] in Ha. destruct Ha as (-> & -> & Hb & Al & Ar).
  pose proof (levels_nonneg l) as Pl. pose proof (levels_nonneg r) as Pr.
  cbn [set_child]. destruct (Z.eqb_spec (cid c) i) as [Ec|Ec].
  - destruct Hs as (c2 & a & b & l2 & r2 & H & He). cbn [find] in H. rewrite Ec, Z.eqb_refl in H. injection H as <- <- <- <- <-.
    destruct left; subst.
    + cbn [TtModel.retrace]. destruct (Z.eqb_spec (cid c) (cid cf)); [tauto|]. rewrite Z.eqb_refl.
      cbn [levels] in *. cbn [TtModel.grow_step]. destruct (Z.eqb_spec (0 + 1 - levels r) 0).
      * do 2 eexists. split; [reflexivity|]. split; [discriminate|]. split; [cbn [avl levels]; repeat split; auto; lia|]. split; [apply sim_refl|].
        right. split; [auto|]. cbn [levels]. lia.
      * assert (levels r = 0) as Hr0 by lia. rewrite (levels_0 _ Hr0). cbn [levels].
        do 2 eexists. split; [reflexivity|]. split; [discriminate|]. split; [cbn [avl levels]; repeat split; auto; lia|]. split; [apply sim_refl|].
        left. split; [auto|]. split; reflexivity.
    + cbn [TtModel.retrace]. destruct (Z.eqb_spec (cid c) (cid cf)); [tauto|]. rewrite (retrace_notin (cid cf) l) by tauto. rewrite Z.eqb_refl.
      cbn [levels] in *. cbn [TtModel.grow_step]. destruct (Z.eqb_spec (levels l - (0 + 1)) 0).
      * do 2 eexists. split; [reflexivity|]. split; [discriminate|]. split; [cbn [avl levels]; repeat split; auto; lia|]. split; [apply sim_refl|].
        right. split; [auto|]. cbn [levels]. lia.
      * assert (levels l = 0) as Hr0 by lia. rewrite (levels_0 _ Hr0). cbn [levels].
        do 2 eexists. split; [reflexivity|]. split; [discriminate|]. split; [cbn [avl levels]; repeat split; auto; lia|]. split; [apply sim_refl|].
        left. split; [auto|]. split; reflexivity.
  - destruct Hi as [Hi|[Hi|Hi]]; [|contradiction|].
    + rewrite (set_child_notin left i _ r) by auto.
      destruct (IHl Al Hnl ltac:(tauto) Hcf (slot_l _ _ _ _ _ _ _ Hn Hi Hs)) as (l' & st & E1 & E2 & E3 & E4 & E5).
      cbn [TtModel.retrace]. destruct (Z.eqb_spec (cid c) f); [tauto|]. rewrite E1. cbn [cells levels].
      destruct E5 as [(-> & E5 & E6)|([-> | ->] & E5)].
      * rewrite <- E5. destruct (Z.eq_dec (levels l') (levels r)) as [Eq|Ne].
        -- cbn [TtModel.grow_step]. destruct (Z.eqb_spec (levels l' - levels r) 0); [|lia]. do 2 eexists. split; [reflexivity|]. split; [discriminate|].
           split; [cbn [avl]; repeat split; auto; lia|]. split; [cbn [cells]; apply sim_node; [exact E4|apply sim_refl]|]. right. split; [auto|]. cbn [levels]. lia.
        -- destruct (grow_ok c l' r _ E3 Ar ltac:(lia) Ne eq_refl ltac:(auto) ltac:(lia)) as (t' & st & G1 & G2 & G3 & G4). rewrite G1.
           exists t', st. split; [reflexivity|]. split; [destruct G4 as [[-> _]|[-> _]]; discriminate|]. split; [exact G2|].
           split; [eapply sim_trans; [apply sim_node; [exact E4|apply sim_refl]|exact G3]|].
           destruct G4 as [(-> & G4 & G5)|(-> & G4)]; [left; split; [auto|]; split; [lia|exact G5]|right; split; [auto|lia]].
      * do 2 eexists. split; [reflexivity|]. split; [discriminate|]. rewrite (avl_ht _ E3). split; [cbn [avl]; repeat split; auto; lia|].
        split; [cbn [cells]; apply sim_node; [exact E4|apply sim_refl]|]. right. split; [auto|]. cbn [levels]. lia.
      * do 2 eexists. split; [reflexivity|]. split; [discriminate|]. split; [cbn [avl]; repeat split; auto; lia|].
        split; [cbn [cells]; apply sim_node; [exact E4|apply sim_refl]|]. right. split; [auto|]. cbn [levels]. lia.
    + assert (Hil : ~ In i (ids l)) by (intro Q; exact (H3 i Q Hi)). rewrite (set_child_notin left i _ l) by auto.
      destruct (IHr Ar Hnr ltac:(tauto) Hcf (slot_r _ _ _ _ _ _ _ Hn Hi Hs)) as (r' & st & E1 & E2 & E3 & E4 & E5).
      cbn [TtModel.retrace]. destruct (Z.eqb_spec (cid c) f); [tauto|]. rewrite (retrace_notin f l) by tauto. rewrite E1. cbn [cells levels].
      destruct E5 as [(-> & E5 & E6)|([-> | ->] & E5)].
      * rewrite <- E5. destruct (Z.eq_dec (levels l) (levels r')) as [Eq|Ne].
        -- cbn [TtModel.grow_step]. destruct (Z.eqb_spec (levels l - levels r') 0); [|lia]. do 2 eexists. split; [reflexivity|]. split; [discriminate|].
           split; [cbn [avl]; repeat split; auto; lia|]. split; [cbn [cells]; apply sim_node; [apply sim_refl|exact E4]|]. right. split; [auto|]. cbn [levels]. lia.
        -- destruct (grow_ok c l r' _ Al E3 ltac:(lia) Ne eq_refl ltac:(lia) ltac:(auto)) as (t' & st & G1 & G2 & G3 & G4). rewrite G1.
           exists t', st. split; [reflexivity|]. split; [destruct G4 as [[-> _]|[-> _]]; discriminate|]. split; [exact G2|].
           split; [eapply sim_trans; [apply sim_node; [apply sim_refl|exact E4]|exact G3]|].
           destruct G4 as [(-> & G4 & G5)|(-> & G4)]; [left; split; [auto|]; split; [lia|exact G5]|right; split; [auto|lia]].
      * do 2 eexists. split; [reflexivity|]. split; [discriminate|]. rewrite (avl_ht _ E3). split; [cbn [avl]; repeat split; auto; lia|].
        split; [cbn [cells]; apply sim_node; [apply sim_refl|exact E4]|]. right. split; [auto|]. cbn [levels]. lia.
      * do 2 eexists. split; [reflexivity|]. split; [discriminate|]. split; [cbn [avl]; repeat split; auto; lia|].
        split; [cbn [cells]; apply sim_node; [apply sim_refl|exact E4]|]. right. split; [auto|]. cbn [levels]. lia.
Qed.

(* ---- a subtree replaced by one that is one level lower ---- *)
Fixpoint put (j : Z) (u t : tree K) : tree K :=
  match t with
  | E => E
  | N c lh rh l r =>
      if is_root K j l then N c (levels u) rh u r
      else if is_root K j r then N c lh (levels u) l u
      else N c lh rh (put j u l) (put j u r)
  end.
Lemma is_root_in j t : is_root K j t = true -> In j (ids t).
Proof. destruct t as [|c lh rh l r]; [discriminate|]. cbn [is_root]. intro H. apply Z.eqb_eq in H. subst. rewrite ids_N. apply in_elt. Qed.
Lemma is_root_no j t : ~ In j (ids t) -> is_root K j t = false.
Proof. intro H. destruct (is_root K j t) eqn:E1; [|reflexivity]. apply is_root_in in E1. contradiction. Qed.
Lemma put_notin j u t : ~ In j (ids t) -> put j u t = t.
Proof.
  induction t as [|c lh rh l IHl r IHr]; [reflexivity|]. rewrite ids_N, in_app_iff. cbn [In put]. intro H.
  rewrite !is_root_no by tauto. now rewrite IHl, IHr by tauto.
Qed.
Lemma parent_none j t : ~ In j (ids t) -> parent_of K j t = None.
Proof.
  induction t as [|c lh rh l IHl r IHr]; [reflexivity|]. rewrite ids_N, in_app_iff. cbn [In parent_of]. intro H.
  rewrite !is_root_no by tauto. cbn [orb]. now rewrite IHl, IHr by tauto.
Qed.
Lemma parent_in j t p : parent_of K j t = Some p -> In p (ids t).
Proof.
  induction t as [|c lh rh l IHl r IHr]; [discriminate|]. rewrite ids_N, in_app_iff. cbn [In parent_of]. destruct (_ || _); [intro H; injection H as <-; auto|].
  destruct (parent_of K j l) eqn:E1; intro H; [left; apply IHl; congruence|auto].
Qed.
Lemma rebal_notin p t : ~ In p (ids t) -> rebal p t = Some (t, false).
Proof.
  induction t as [|c lh rh l IHl r IHr]; [reflexivity|]. rewrite ids_N, in_app_iff. cbn [In TtModel.rebal]. intro H.
  destruct (Z.eqb_spec (cid c) p); [tauto|]. now rewrite IHl, IHr by tauto.
Qed.
Lemma step_ok c l r : avl l -> avl r -> -2 <= levels l - levels r <= 2 ->
  exists t', rebal_step (N c (levels l) (levels r) l r) = Some t' /\ avl t' /\ sim (cells l ++ c :: cells r) (cells t') /\
    Z.max (levels l) (levels r) <= levels t' <= 1 + Z.max (levels l) (levels r) /\ (-1 <= levels l - levels r <= 1 -> levels t' = 1 + Z.max (levels l) (levels r)).
Proof.
  intros Al Ar Hb. cbn [TtModel.rebal_step]. destruct (skewed (levels l) (levels r)) eqn:Es.
  - apply skewed_iff in Es. destruct (rotate_ok c l r Al Ar) as (d & dl & dr & l' & r' & E1 & E2 & E3 & E4); [lia|]. rewrite E1.
    pose proof E2 as E2'. cbn [avl] in E2'. destruct E2' as (-> & -> & B & _). rewrite (not_skewed _ _ B).
    eexists. split; [reflexivity|]. split; [exact E2|]. split; [exact E3|]. rewrite E4. destruct (even _); lia.
  - exists (N c (levels l) (levels r) l r). split; [reflexivity|].
    assert (-1 <= levels l - levels r <= 1).
    { destruct (Z_le_dec (-1) (levels l - levels r)), (Z_le_dec (levels l - levels r) 1); try lia;
        assert (skewed (levels l) (levels r) = true) by (apply skewed_iff; lia); congruence. }
    split; [cbn [avl]; repeat split; auto; lia|]. split; [apply sim_refl|]. cbn [levels]. lia.
Qed.
Lemma root_find j t u : is_root K j t = true -> find K j t = Some u -> u = t.
Proof. destruct t as [|c lh rh l r]; [discriminate|]. cbn [is_root find]. intros ->. congruence. Qed.
Lemma put_ok j u old t : avl t -> NoDup (ids t) -> find K j t = Some old -> is_root K j t = false -> avl u -> levels u = levels old - 1 ->
  exists p t', parent_of K j t = Some p /\ rebal p (put j u t) = Some (t', true) /\ avl t' /\ sim (cells (put j u t)) (cells t') /\
    levels t - 1 <= levels t' <= levels t.
Proof.
  induction t as [|c lh rh l IHl r IHr]; intros Ha Hn Hf Hr Au Hu; [discriminate|].
  pose proof (nd_N _ _ _ _ _ Hn) as (Hnl & Hnr & H1 & H2 & H3). cbn [avl] in Ha. destruct Ha as (-> & -> & Hb & Al & Ar).
  cbn [is_root] in Hr. pose proof (find_in _ _ _ Hf) as Hi. rewrite ids_N, in_app_iff in Hi. cbn [In] in Hi. apply Z.eqb_neq in Hr.
  cbn [parent_of put]. destruct (is_root K j l) eqn:Rl.
  - cbn [orb]. pose proof (is_root_in _ _ Rl) as Hjl. rewrite (find_l j c _ _ l r Hn Hjl) in Hf. apply root_find in Hf; [|exact Rl]. subst old.
    cbn [TtModel.rebal]. destruct (step_ok c u r Au Ar ltac:(lia)) as (t' & S1 & S2 & S3 & S4 & S5).
    exists (cid c), t'. split; [reflexivity|]. rewrite Z.eqb_refl, S1. split; [reflexivity|]. split; [exact S2|]. split; [exact S3|]. cbn [levels].
    destruct (Z_le_dec (-1) (levels u - levels r)); [rewrite S5 by lia; lia|lia].
  - destruct (is_root K j r) eqn:Rr.
    + cbn [orb]. pose proof (is_root_in _ _ Rr) as Hjr. rewrite (find_r j c _ _ l r Hn Hjr) in Hf. apply root_find in Hf; [|exact Rr]. subst old.
      cbn [TtModel.rebal]. destruct (step_ok c l u Al Au ltac:(lia)) as (t' & S1 & S2 & S3 & S4 & S5).
      exists (cid c), t'. split; [reflexivity|]. rewrite Z.eqb_refl, S1. split; [reflexivity|]. split; [exact S2|]. split; [exact S3|]. cbn [levels].
      destruct (Z_le_dec (levels l - levels u) 1); [rewrite S5 by lia; lia|lia].
    + cbn [orb]. destruct Hi as [Hi|[Hi|Hi]]; [|contradiction|].
      * rewrite (put_notin j u r) by auto. rewrite (find_l j c _ _ l r Hn Hi) in Hf.
        destruct (IHl Al Hnl Hf eq_refl Au Hu) as (p & l' & P1 & P2 & P3 & P4 & P5). rewrite P1.
        pose proof (parent_in _ _ _ P1) as Hp. destruct (step_ok c l' r P3 Ar ltac:(lia)) as (t' & S1 & S2 & S3 & S4 & S5).
        exists p, t'. split; [reflexivity|]. cbn [TtModel.rebal]. destruct (Z.eqb_spec (cid c) p) as [Ep|]; [rewrite Ep in *; contradiction|]. rewrite P2.
        rewrite (avl_ht _ P3), S1. split; [reflexivity|]. split; [exact S2|]. cbn [cells levels].
        split; [eapply sim_trans; [apply sim_node; [exact P4|apply sim_refl]|exact S3]|].
        destruct (Z_le_dec (-1) (levels l' - levels r)); [rewrite S5 by lia; lia|lia].
      * assert (Hil : ~ In j (ids l)) by (intro Q; exact (H3 j Q Hi)). rewrite (put_notin j u l) by auto. rewrite (parent_none j l) by auto.
        rewrite (find_r j c _ _ l r Hn Hi) in Hf. destruct (IHr Ar Hnr Hf eq_refl Au Hu) as (p & r' & P1 & P2 & P3 & P4 & P5). rewrite P1.
        pose proof (parent_in _ _ _ P1) as Hp. destruct (step_ok c l r' Al P3 ltac:(lia)) as (t' & S1 & S2 & S3 & S4 & S5).
        exists p, t'. split; [reflexivity|]. cbn [TtModel.rebal]. destruct (Z.eqb_spec (cid c) p) as [Ep|]; [rewrite Ep in *; contradiction|].
        rewrite (rebal_notin p l) by (intro Q; exact (H3 p Q Hp)). rewrite P2.
        rewrite (avl_ht _ P3), S1. split; [reflexivity|]. split; [exact S2|]. cbn [cells levels].
        split; [eapply sim_trans; [apply sim_node; [apply sim_refl|exact P4]|exact S3]|].
        destruct (Z_le_dec (levels l - levels r') 1); [rewrite S5 by lia; lia|lia].
Qed.
Lemma cells_put j u old t : NoDup (ids t) -> find K j t = Some old -> is_root K j t = false ->
  exists A B, cells t = A ++ cells old ++ B /\ cells (put j u t) = A ++ cells u ++ B.
Proof.
  induction t as [|c lh rh l IHl r IHr]; intros Hn Hf Hr; [discriminate|].
  pose proof (nd_N _ _ _ _ _ Hn) as (Hnl & Hnr & H1 & H2 & H3).
  cbn [is_root] in Hr. pose proof (find_in _ _ _ Hf) as Hi. rewrite ids_N, in_app_iff in Hi. cbn [In] in Hi. apply Z.eqb_neq in Hr.
  cbn [put]. destruct (is_root K j l) eqn:Rl.
  - pose proof (is_root_in _ _ Rl) as Hjl. rewrite (find_l j c _ _ l r Hn Hjl) in Hf. apply root_find in Hf; [|exact Rl]. subst old.
    exists [], (c :: cells r). split; reflexivity.
  - destruct (is_root K j r) eqn:Rr.
    + pose proof (is_root_in _ _ Rr) as Hjr. rewrite (find_r j c _ _ l r Hn Hjr) in Hf. apply root_find in Hf; [|exact Rr]. subst old.
      exists (cells l ++ [c]), []. rewrite !app_nil_r, <- !app_assoc. split; reflexivity.
    + destruct Hi as [Hi|[Hi|Hi]]; [|contradiction|].
      * rewrite (put_notin j u r) by auto. rewrite (find_l j c _ _ l r Hn Hi) in Hf. destruct (IHl Hnl Hf eq_refl) as (A & B & E1 & E2).
        exists A, (B ++ c :: cells r). cbn [cells]. rewrite E1, E2, <- !app_assoc. split; reflexivity.
      * assert (Hil : ~ In j (ids l)) by (intro Q; exact (H3 j Q Hi)). rewrite (put_notin j u l) by auto. rewrite (find_r j c _ _ l r Hn Hi) in Hf.
        destruct (IHr Hnr Hf eq_refl) as (A & B & E1 & E2). exists (cells l ++ c :: A), B. cbn [cells]. rewrite E1, E2, <- !app_assoc. split; reflexivity.
Qed.
End S.
