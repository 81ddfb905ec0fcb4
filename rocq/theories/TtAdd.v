(** The T-tree index: the invariant, adding a row. *)
From Coq Require Import List ZArith Bool Lia Sorted.
From Verif Require Import TtModel TtSpec TtProof TtShape TtChain TtSeek.
Import ListNotations.
Open Scope Z_scope.

Lemma NoDup_app_l (a b : list Z) : NoDup (a ++ b) -> NoDup a.
Proof. induction a as [|z a IH]; intro H; [constructor|]. cbn in H. inversion H; subst. constructor; [rewrite in_app_iff in *; tauto|auto]. Qed.
Lemma NoDup_app_r (a b : list Z) : NoDup (a ++ b) -> NoDup b.
Proof. induction a as [|z a IH]; intro H; [exact H|]. cbn in H. inversion H; auto. Qed.

Section A.
Context {K : Type}.
Variable cmp : K -> K -> comparison.
Variable key : Z -> K.
Hypothesis TO : total_order cmp.
Notation le := (fun a b => cmp (key a) (key b) <> Gt).
Notation srt := (sorted cmp key).
Notation wfc := (wfc key). Notation below := (below cmp). Notation above := (above cmp).
Notation field := (field K key).

Definition shape (t : tree K) : Prop :=
  (exists c, t = N c 0 0 E E /\ els c = [] /\ mn c = None /\ mx c = None) \/ (t <> E /\ Forall wfc (cells t)).
Record inv (x : ix K) : Prop := {
  i_avl : avl (tr x); i_nd : NoDup (ids (tr x)); i_0 : ~ In 0 (ids (tr x)); i_shape : shape (tr x);
  i_srt : srt (flat (cells (tr x))); i_chain : chain (ids (tr x)) x }.
Lemma shape_sorted t : shape t -> srt (flat (cells t)) -> t <> E /\ StronglySorted (mn_le cmp) (cells t) /\ StronglySorted (mx_le cmp) (cells t).
Proof.
  intros [(c & -> & _)|[H W]] S1.
  - split; [discriminate|]. split; repeat constructor.
  - split; [exact H|]. now apply (wf_sorted cmp key).
Qed.

(* ---- lists ---- *)
Lemma last_error_app (X Y : list Z) : Y <> [] -> last_error (X ++ Y) = last_error Y.
Proof. intro H. destruct (exists_last H) as (Z0 & z & ->). rewrite app_assoc, !last_app. reflexivity. Qed.
Lemma uniq_split (A : list (cell K)) : forall c B A' c' B', NoDup (map cid (A ++ c :: B)) -> A ++ c :: B = A' ++ c' :: B' -> cid c = cid c' -> A = A' /\ c = c' /\ B = B'.
Proof.
  induction A as [|a A IH]; intros c B A' c' B' Hn HE Hc; destruct A' as [|a' A']; cbn in *.
  - injection HE as <- <-. auto.
  - injection HE as <- ->. inversion Hn as [|? ? Hx _]; subst. exfalso. apply Hx. rewrite Hc. rewrite map_app. apply in_elt.
  - injection HE as <- <-. inversion Hn as [|? ? Hx _]; subst. exfalso. apply Hx. rewrite <- Hc. rewrite map_app. apply in_elt.
  - injection HE as <- HE. inversion Hn; subst. destruct (IH c B A' c' B') as (-> & -> & ->); auto.
Qed.
Lemma cells_at (t : tree K) A c B f : NoDup (ids t) -> cells t = A ++ c :: B -> cells (upd K (cid c) f t) = A ++ f c :: B.
Proof. intros Hn H. rewrite cells_upd, H. apply on_split; [|reflexivity]. unfold ids in Hn. rewrite H in Hn. exact Hn. Qed.
Lemma find_sub i j (t v u : tree K) : NoDup (ids t) -> find K i t = Some v -> find K j v = Some u -> find K j t = Some u.
Proof.
  induction t as [|c lh rh l IHl r IHr]; intros Hn H1 H2; [discriminate|]. pose proof (nd_N _ _ _ _ _ Hn) as (Hnl & Hnr & _).
  cbn [find] in H1. destruct (Z.eqb_spec (cid c) i); [injection H1 as <-; exact H2|]. destruct (find K i l) eqn:E1.
  - injection H1 as ->. specialize (IHl Hnl eq_refl H2). rewrite find_l; auto. eapply find_in; exact IHl.
  - specialize (IHr Hnr H1 H2). rewrite find_r; auto. eapply find_in; exact IHr.
Qed.
(* the node before one with a left child has no right child *)
Lemma glb (t : tree K) A c B lh rh l r : NoDup (ids t) -> cells t = A ++ c :: B -> find K (cid c) t = Some (N c lh rh l r) -> l <> E ->
  exists A' d lh' rh' l', A = A' ++ [d] /\ find K (cid d) t = Some (N d lh' rh' l' E).
Proof.
  intros Hn HC Hf Hl. destruct (find_split _ _ _ Hf) as (X & Y & HX). cbn [cells] in HX.
  assert (Hnu2 : NoDup (ids (N c lh rh l r))).
  { unfold ids in *. rewrite HX, map_app in Hn. apply NoDup_app_r in Hn. rewrite map_app in Hn. apply NoDup_app_l in Hn. exact Hn. }
  assert (Hnu : NoDup (ids l)) by (apply nd_N in Hnu2; tauto).
  assert (Hne : cells l <> []) by (destruct l; [contradiction|]; cbn; intro Q; apply app_eq_nil in Q; destruct Q; discriminate).
  destruct (exists_last Hne) as (L & d & EL). destruct (last_no_right l L d Hnu EL) as (lh' & rh' & l' & F).
  assert (HX2 : cells t = (X ++ L ++ [d]) ++ c :: (cells r ++ Y)) by (rewrite HX, EL, <- !app_assoc; reflexivity).
  unfold ids in Hn. rewrite HC in HX2. rewrite HC in Hn. destruct (uniq_split _ _ _ _ _ _ Hn HX2 eq_refl) as (-> & _ & _).
  exists (X ++ L), d, lh', rh', l'. split; [now rewrite app_assoc|]. rewrite <- HC in Hn. apply (find_sub (cid c) (cid d) t (N c lh rh l r)); auto.
  rewrite find_l; auto. eapply find_in; exact F.
Qed.

(* ---- rows into nodes ---- *)
Lemma first_ge_ok k es : srt es -> let i := first_ge K cmp key k es in
  (forall a, In a (firstn i es) -> cmp (key a) k <> Gt) /\ (forall b, In b (skipn i es) -> cmp k (key b) <> Gt).
Proof.
  induction es as [|e es IH]; intro S1; cbn [first_ge]; [split; intros ? []|]. apply StronglySorted_inv in S1. destruct S1 as [S1 S2].
  destruct (cmp (key e) k) eqn:Ec; cbn [is_lt firstn skipn].
  - split; [intros a []|]. intros b [<-|Hb]; [apply nlt_le; auto; congruence|]. rewrite Forall_forall in S2. eapply (c_trans cmp TO); [|apply S2; exact Hb]. apply nlt_le; auto; congruence.
  - destruct (IH S1) as [I1 I2]. split; [|exact I2]. intros a [<-|Ha]; [congruence|auto].
  - split; [intros a []|]. intros b [<-|Hb]; [apply nlt_le; auto; congruence|]. rewrite Forall_forall in S2. eapply (c_trans cmp TO); [|apply S2; exact Hb]. apply nlt_le; auto; congruence.
Qed.
Lemma first_ge_lt k es e : In e es -> cmp k (key e) <> Gt -> (first_ge K cmp key k es < length es)%nat.
Proof.
  induction es as [|a es IH]; intros He Hk; [destruct He|]. cbn [first_ge length]. destruct (is_lt (cmp (key a) k)) eqn:Ec; [|lia].
  destruct He as [->|He]; [|specialize (IH He Hk); lia]. apply lt_true in Ec. apply (gt_lt cmp TO) in Ec. contradiction.
Qed.
Definition keeps_row (c c' : cell K) (r : Z) : Prop := exists L R, els c = L ++ R /\ els c' = L ++ r :: R.
Lemma ins_lo_ok r c : wfc c -> srt (els c) -> below (key r) c = false -> above (key r) c = false -> (length (els c) < node_size)%nat ->
  wfc (ins_lo K cmp key (key r) r c) /\ exists L R, els c = L ++ R /\ els (ins_lo K cmp key (key r) r c) = L ++ r :: R /\
   (forall a, In a L -> le a r) /\ (forall b, In b R -> le r b).
Proof.
  intros W S1 Hb Ha Hlen. destruct (nabove_mx cmp key _ _ W Ha) as (es & z & E1 & E2).
  pose proof (first_ge_ok (key r) (els c) S1) as [F1 F2]. pose proof (first_ge_lt (key r) (els c) z ltac:(rewrite E1; apply in_elt) E2) as F3.
  unfold ins_lo. set (i := first_ge K cmp key (key r) (els c)) in *. clearbody i. split.
  - destruct W as [W1 W2 W3 W4]. constructor; cbn [els mn mx].
    + destruct (firstn i (els c)); discriminate.
    + rewrite app_length. cbn [length]. rewrite firstn_length, skipn_length. lia.
    + destruct i as [|i]; [reflexivity|]. cbn [Nat.eqb]. rewrite W3. destruct (els c); [contradiction|reflexivity].
    + rewrite W4. assert (Q : skipn i (els c) <> []). { intro Q. pose proof (f_equal (@length Z) Q) as L. rewrite skipn_length in L. cbn in L. lia. }
      rewrite <- (firstn_skipn i (els c)) at 1. rewrite last_error_app by exact Q. f_equal.
      change (firstn i (els c) ++ r :: skipn i (els c)) with (firstn i (els c) ++ [r] ++ skipn i (els c)). rewrite app_assoc, last_error_app by exact Q. reflexivity.
  - exists (firstn i (els c)), (skipn i (els c)). cbn [els]. rewrite firstn_skipn. auto.
Qed.
Lemma last_le_ok k es : forall n, (n < length es)%nat -> (exists m, hd_error es = Some m /\ cmp (key m) k <> Gt) ->
  let i := last_le K cmp key k es n in (i <= n)%nat /\ (exists e, nth_error es i = Some e /\ cmp (key e) k <> Gt) /\
    forall j e, (i < j <= n)%nat -> nth_error es j = Some e -> cmp (key e) k = Gt.
Proof.
  induction n as [|n IH]; intros Hn Hm; cbn [last_le].
  - split; [lia|]. split; [destruct Hm as (m & H1 & H2); exists m; split; [destruct es; [discriminate|exact H1]|exact H2]|]. intros; lia.
  - destruct (nth_error es (S n)) as [e|] eqn:Ee; [|apply nth_error_None in Ee; lia]. cbn [TtModel.field option_map TtModel.ocmp].
    destruct (is_gt (cmp (key e) k)) eqn:Eg.
    + destruct (IH ltac:(lia) Hm) as (I1 & I2 & I3). split; [lia|]. split; [exact I2|]. intros j e' Hj He'.
      destruct (Nat.eq_dec j (S n)) as [->|]; [rewrite Ee in He'; injection He' as <-; now apply gt_true|]. apply (I3 j); [lia|exact He'].
    + split; [lia|]. split; [exists e; split; [exact Ee|]; destruct (cmp (key e) k); discriminate|]. intros; lia.
Qed.
Lemma ins_full_ok r c m es : wfc c -> srt (els c) -> below (key r) c = false -> above (key r) c = false -> els c = m :: es -> length es = 7%nat ->
  wfc (ins_full K cmp key (key r) r c) /\ length (els (ins_full K cmp key (key r) r c)) = node_size /\
  exists L R, els c = L ++ R /\ m :: els (ins_full K cmp key (key r) r c) = L ++ r :: R /\
   (forall a, In a L -> le a r) /\ (forall b, In b R -> le r b).
Proof.
  intros W S1 Hb Ha EC Hlen. destruct (nbelow_mn cmp key TO _ _ W Hb) as (m' & es' & E1 & E2). rewrite EC in E1. injection E1 as <- <-.
  destruct (last_le_ok (key r) (els c) (node_size - 1)) as (I1 & (e & I2 & I3) & I4).
  { rewrite EC. cbn. rewrite Hlen. unfold node_size. lia. }
  { exists m. rewrite EC. auto. }
  unfold ins_full. set (i := last_le K cmp key (key r) (els c) (node_size - 1)) in *. clearbody i.
  destruct (nth_error_split _ _ I2) as (P & Q & EQ & LP).
  assert (LQ : (length Q = 7 - i)%nat). { pose proof (f_equal (@length Z) EQ) as L. rewrite EC, app_length in L. cbn [length] in L. rewrite Hlen in L. unfold node_size in I1. lia. }
  assert (ES : skipn (S i) (els c) = Q). { rewrite EQ. change (P ++ e :: Q) with (P ++ [e] ++ Q). rewrite app_assoc, skipn_app, skipn_all2 by (rewrite app_length; cbn; lia). rewrite app_length. cbn [length]. replace (S i - (length P + 1))%nat with O by lia. reflexivity. }
  assert (EF : m :: firstn i (tl (els c)) = P ++ [e]).
  { rewrite EC. cbn [tl]. change (m :: firstn i es) with (firstn (S i) (m :: es)). rewrite <- EC, EQ.
    change (P ++ e :: Q) with (P ++ [e] ++ Q). rewrite app_assoc, firstn_app, firstn_all2 by (rewrite app_length; cbn; lia). rewrite app_length. cbn [length]. replace (S i - (length P + 1))%nat with O by lia. cbn. now rewrite app_nil_r. }
  assert (LF : length (firstn i (tl (els c))) = i). { pose proof (f_equal (@length Z) EF) as L. rewrite app_length in L. cbn [length] in L. lia. }
  cbv zeta. rewrite ES. set (F := firstn i (tl (els c))) in *. clearbody F. cbn [els mn mx].
  assert (LEN : length (F ++ r :: Q) = node_size) by (rewrite app_length; cbn [length]; unfold node_size in *; lia).
  assert (LST : Q <> [] -> mx c = field (last_error (F ++ r :: Q))).
  { intro NQ. rewrite (w_mx _ _ W), EQ. change (P ++ e :: Q) with (P ++ [e] ++ Q). change (F ++ r :: Q) with (F ++ [r] ++ Q). rewrite !app_assoc, !last_error_app by exact NQ. reflexivity. }
  assert (NQ : (i < 7)%nat -> Q <> []) by (intros ? ->; cbn [length] in LQ; lia).
  split; [|split; [exact LEN|]].
  - constructor; cbn [els mn mx].
    + destruct F; discriminate.
    + rewrite LEN. lia.
    + destruct i as [|i]; [|reflexivity]. destruct F; [reflexivity|discriminate].
    + destruct i as [|i]; [cbn [Nat.eqb]; apply LST; apply NQ; lia|]. cbn [Nat.eqb]. destruct (Nat.eqb_spec i (node_size - 2)) as [Ei|Ei].
      * destruct Q; [|cbn [length] in LQ; unfold node_size in Ei; lia]. unfold node_size in Ei |- *. subst i. cbn [Nat.sub Nat.eqb]. rewrite last_app. reflexivity.
      * unfold node_size in *. cbn [Nat.sub] in *. destruct (Nat.eqb_spec i 6); [lia|]. apply LST. apply NQ. lia.
  - exists (P ++ [e]), Q. split; [rewrite EQ, <- app_assoc; reflexivity|]. split; [change (m :: F ++ r :: Q) with ((m :: F) ++ r :: Q); now rewrite EF|].
    split.
    + intros a Ha2. apply in_app_iff in Ha2. destruct Ha2 as [Ha2|[<-|[]]]; [|exact I3]. rewrite EQ in S1. apply srt_app in S1. destruct S1 as (_ & _ & S1).
      eapply (c_trans cmp TO); [apply S1; [exact Ha2|now left]|exact I3].
    + intros b Hb2. destruct (In_nth_error _ _ Hb2) as [n En]. assert (Hn : (n < length Q)%nat) by (apply nth_error_Some; congruence).
      apply lt_le. apply (gt_lt cmp TO). apply (I4 (S i + n)%nat); [unfold node_size; lia|]. rewrite EQ, nth_error_app2 by lia. replace (S i + n - length P)%nat with (S n) by lia. exact En.
Qed.
Lemma ins_end_ok left r c : wfc c \/ els c = [] -> (length (els c) < node_size)%nat ->
  wfc (ins_end K left (key r) r c) /\ els (ins_end K left (key r) r c) = if left then r :: els c else els c ++ [r].
Proof.
  intros W Hl. split; [|reflexivity]. unfold ins_end. constructor; cbn [els mn mx].
  - destruct left; [discriminate|]. destruct (els c); discriminate.
  - destruct left; [cbn; lia|]. rewrite app_length. cbn. lia.
  - destruct left; [reflexivity|]. cbn [orb]. destruct W as [W|W]; [|rewrite W; reflexivity]. destruct W as [W1 W2 W3 W4]. rewrite W3. destruct (els c); [contradiction|reflexivity].
  - destruct left; cbn [negb orb]; [|rewrite last_app; reflexivity]. destruct W as [W|W]; [|rewrite W; reflexivity]. destruct W as [W1 W2 W3 W4]. rewrite W4.
    destruct (Nat.eqb_spec (length (els c)) 0) as [E0|]; [apply length_zero_iff_nil in E0; contradiction|].
    change (r :: els c) with ([r] ++ els c). rewrite last_error_app by exact W1. reflexivity.
Qed.

(* ---- a new leaf ---- *)
Lemma attach_ok left b f r kk t x A c B : avl t -> NoDup (ids t) -> ~ In 0 (ids t) -> f <> 0 -> ~ In f (ids t) -> slot left b t ->
  cells t = A ++ c :: B -> cid c = b -> Forall wfc (cells t) -> kk = Some (key r) -> chain (ids t) x ->
  exists y, finish K key f ((if left then link_before K b f else link_after K b f) (with_tree K (set_child K left b (new_leaf K f r kk) t) x)) = Some (y, 0) /\
    avl (tr y) /\ ids (tr y) = map cid A ++ (if left then [f; b] else [b; f]) ++ map cid B /\ Forall wfc (cells (tr y)) /\ cells (tr y) <> [] /\
    flat (cells (tr y)) = flat A ++ (if left then r :: els c else els c ++ [r]) ++ flat B /\ chain (ids (tr y)) y.
Proof.
  intros Ha Hn H0 Hf0 Hf Hs HC Hc HW -> Hch. subst b.
  destruct (retrace_ok key left (cid c) f {| cid := f; els := [r]; mn := Some (key r); mx := Some (key r) |} t Ha Hn Hf eq_refl Hs) as (t' & st & E1 & E2 & E3 & (E4 & E5 & E6) & _).
  destruct (cells_attach left (cid c) (new_leaf K f r (Some (key r))) t Hn Hs) as (A' & c' & B' & F1 & F2 & F3).
  assert (HN : NoDup (map cid (A ++ c :: B))) by (unfold ids in Hn; now rewrite HC in Hn).
  rewrite HC in F2. destruct (uniq_split _ _ _ _ _ _ HN F2 (eq_sym F1)) as (<- & <- & <-). clear F1 F2.
  set (L := (if left then link_before K (cid c) f else link_after K (cid c) f) (with_tree K (set_child K left (cid c) (new_leaf K f r (Some (key r))) t) x)).
  assert (TL : tr L = set_child K left (cid c) (new_leaf K f r (Some (key r))) t) by (unfold L; destruct left; reflexivity).
  assert (IDS : ids t' = map cid A ++ (if left then [f; cid c] else [cid c; f]) ++ map cid B).
  { unfold ids. rewrite <- E4. fold (new_leaf K f r (Some (key r))). rewrite F3, !map_app. destruct left; reflexivity. }
  exists (with_tree K t' L). unfold finish. rewrite TL. fold (new_leaf K f r (Some (key r))) in E1. rewrite E1. split; [reflexivity|]. cbn [tr with_tree].
  split; [exact E3|]. split; [exact IDS|]. split; [|split; [|split]].
  - apply E6. fold (new_leaf K f r (Some (key r))). rewrite F3. rewrite HC in HW. apply Forall_app in HW. destruct HW as [W1 W2]. inversion_clear W2 as [|? ? W3 W4].
    assert (wfc {| cid := f; els := [r]; mn := Some (key r); mx := Some (key r) |}) by (constructor; cbn; unfold node_size; try lia; try reflexivity; discriminate).
    apply Forall_app. split; [exact W1|]. apply Forall_app. split; [|exact W4]. destruct left; cbn; auto.
  - intro Q. apply (f_equal (map cid)) in Q. fold (ids t') in Q. rewrite IDS in Q. apply (f_equal (@length Z)) in Q. rewrite !app_length in Q. destruct left; cbn in Q; lia.
  - rewrite <- E5. fold (new_leaf K f r (Some (key r))). rewrite F3, !flat_app. f_equal. f_equal. destruct left; cbn; now rewrite ?app_nil_r.
  - rewrite IDS. apply chain_tree. unfold L. unfold ids in Hch, Hn, H0, Hf. rewrite HC, map_app in Hch, Hn, H0, Hf. cbn [map] in *. destruct left.
    + apply (link_before_ok (map cid A) (cid c) (map cid B) f); auto.
    + apply (link_after_ok (map cid A) (cid c) (map cid B) f); auto.
Qed.

(* ---- ttree_add_row ---- *)
Definition added (x y : ix K) (r f : Z) : Prop :=
  (exists L R, rows (tr x) = L ++ R /\ rows (tr y) = L ++ r :: R) /\ incl (ids (tr y)) (f :: ids (tr x)).
Lemma in_place x A c B c' L R r f t : inv x -> cells (tr x) = A ++ c :: B -> avl t -> cells t = A ++ c' :: B -> cid c' = cid c ->
  Forall wfc A -> Forall wfc B -> wfc c' -> els c = L ++ R -> els c' = L ++ r :: R ->
  (forall a, In a (flat A ++ L) -> le a r) -> (forall b, In b (R ++ flat B) -> le r b) ->
  inv (with_tree K t x) /\ added x (with_tree K t x) r f.
Proof.
  intros [I1 I2 I3 I4 I5 I6] HC Ht HC' Hid WA WB Wc E1 E2 HL HR.
  assert (IDS : ids t = ids (tr x)) by (unfold ids; rewrite HC, HC', !map_app; cbn; now rewrite Hid).
  assert (F1 : flat (cells (tr x)) = (flat A ++ L) ++ R ++ flat B) by (rewrite HC, flat_app, flat_cons, E1, <- !app_assoc; reflexivity).
  assert (F2 : flat (cells t) = (flat A ++ L) ++ r :: R ++ flat B) by (rewrite HC', flat_app, flat_cons, E2, <- !app_assoc; reflexivity).
  split.
  - constructor; cbn [tr with_tree]; rewrite ?IDS; auto.
    + right. split; [|rewrite HC'; apply Forall_app; auto]. intros ->. destruct A; discriminate.
    + rewrite F2. apply srt_insert; auto. rewrite <- F1. exact I5.
  - split; [|cbn [tr with_tree]; rewrite IDS; intros i Hi; now right]. exists (flat A ++ L), (R ++ flat B). rewrite !rows_flat. cbn [tr with_tree]. auto.
Qed.
Lemma ids_in (t : tree K) c : In c (cells t) -> In (cid c) (ids t).
Proof. apply in_map. Qed.
Theorem add_ok x r f : inv x -> f <> 0 -> ~ In f (ids (tr x)) -> exists y, add_row K cmp key x r f = Some (y, 0) /\ inv y /\ added x y r f.
Proof.
  intros Hinv Hf0 Hf. pose proof Hinv as [I1 I2 I3 I4 I5 I6]. destruct (shape_sorted _ I4 I5) as (Hne & Smn & Smx).
  destruct (rightmost_ok cmp key TO (key r) (tr x) [] [] None Hne I2 Smn ltac:(auto) ltac:(discriminate) ltac:(constructor)) as (bd & A & c & B & R1 & R2 & R3 & R4).
  cbn [List.app] in R2. rewrite app_nil_r in R2. unfold add_row. rewrite R1.
  destruct (find_cell c (tr x) I2) as (lh & rh & l & rr & Fc); [rewrite R2; apply in_elt|].
  pose proof I5 as S0. rewrite R2, flat_app, flat_cons in S0. apply srt_app in S0. destruct S0 as (SA & S0 & SAx). apply srt_app in S0. destruct S0 as (Sc & SB & ScB).
  assert (HN : NoDup (map cid (A ++ c :: B))) by (unfold ids in I2; now rewrite R2 in I2).
  (* what is before and after the node *)
  destruct bd.
  - destruct R4 as [R4 R5].
    assert (HW : Forall wfc (cells (tr x))).
    { destruct I4 as [(c0 & Et & _ & _ & Em)|[_ W]]; [|exact W]. exfalso. rewrite Et in R2. cbn in R2. destruct A as [|? [|]]; try discriminate. injection R2 as <- <-. unfold TtSeek.above in R5. rewrite Em in R5. discriminate. }
    pose proof HW as HW'. rewrite R2 in HW'. apply Forall_app in HW'. destruct HW' as [WA W2]. inversion_clear W2 as [|? ? Wc WB].
    assert (HA : forall a, In a (flat A) -> le a r).
    { intros a Ha. destruct (nbelow_mn cmp key TO _ _ Wc R4) as (m & es & E1 & E2). eapply (c_trans cmp TO); [apply (SAx a m Ha); apply in_app_iff; left; rewrite E1; now left|exact E2]. }
    assert (HB : forall b, In b (flat B) -> le r b).
    { intros b Hb. destruct (nabove_mx cmp key _ _ Wc R5) as (es & m & E1 & E2). eapply (c_trans cmp TO); [exact E2|]. apply (ScB m b); [rewrite E1; apply in_elt|exact Hb]. }
    rewrite Fc. destruct (Nat.ltb_spec (length (els c)) node_size) as [Hlt|Hge].
    + destruct (ins_lo_ok r c Wc Sc R4 R5 Hlt) as (W1 & L & R & E1 & E2 & E3 & E4).
      eexists. split; [reflexivity|]. apply (in_place x A c B (ins_lo K cmp key (key r) r c) L R); auto.
      * now apply avl_upd.
      * now apply cells_at.
      * intros a Ha. apply in_app_iff in Ha. destruct Ha; auto.
      * intros a Ha. apply in_app_iff in Ha. destruct Ha; auto.
    + destruct (els c) as [|m es] eqn:Ec; [cbn in Hge; unfold node_size in Hge; lia|].
      assert (Les : length es = 7%nat). { pose proof (w_sz _ _ Wc) as Q. rewrite Ec in Q. cbn [length] in Q, Hge. unfold node_size in *. lia. }
      assert (Sc' : srt (els c)) by (rewrite Ec; exact Sc).
      destruct (ins_full_ok r c m es Wc Sc' R4 R5 Ec Les) as (W1 & L1 & L & R & E1 & E2 & E3 & E4).
      set (c' := ins_full K cmp key (key r) r c) in *. assert (Hid : cid c' = cid c) by reflexivity.
      set (t1 := upd K (cid c) (ins_full K cmp key (key r) r) (tr x)).
      assert (Kf : keeps (ins_full K cmp key (key r) r)) by (intro; reflexivity).
      assert (HC1 : cells t1 = A ++ c' :: B) by (unfold t1; now apply cells_at).
      assert (A1 : avl t1) by now apply avl_upd. assert (ID1 : ids t1 = ids (tr x)) by now apply ids_upd.
      assert (FW : Forall wfc (cells t1)) by (rewrite HC1; apply Forall_app; auto).
      assert (Hmn : mn c = Some (key m)) by (rewrite (w_mn _ _ Wc), Ec; reflexivity).
      assert (FX : flat (cells (tr x)) = (flat A ++ L) ++ R ++ flat B) by (rewrite R2, flat_app, flat_cons, E1, <- !app_assoc; reflexivity).
      assert (SY : srt ((flat A ++ L) ++ r :: R ++ flat B)).
      { apply srt_insert; [rewrite <- FX; exact I5| |]; intros a Ha; apply in_app_iff in Ha; destruct Ha; auto. }
      (* common end: the rows are as wanted *)
      assert (DONE : forall y, avl (tr y) -> NoDup (ids (tr y)) -> ~ In 0 (ids (tr y)) -> Forall wfc (cells (tr y)) -> cells (tr y) <> [] -> chain (ids (tr y)) y ->
        incl (ids (tr y)) (f :: ids (tr x)) -> flat (cells (tr y)) = flat A ++ m :: els c' ++ flat B -> inv y /\ added x y r f).
      { intros y Y1 Y2 Y3 Y4 Y5 Y6 Y7 Y8. assert (Y8' : flat (cells (tr y)) = (flat A ++ L) ++ r :: R ++ flat B).
        { rewrite Y8. change (m :: els c' ++ flat B) with ((m :: els c') ++ flat B). rewrite E2, <- !app_assoc. reflexivity. }
        split; [constructor; auto|split; [|exact Y7]].
        - right. split; [|exact Y4]. intro Q. rewrite Q in Y5. contradiction.
        - rewrite Y8'. exact SY.
        - exists (flat A ++ L), (R ++ flat B). rewrite !rows_flat. auto. }
      assert (NDF : forall X Y, NoDup (X ++ Y) -> ~ In f (X ++ Y) -> NoDup (X ++ f :: Y)).
      { intros X Y Q1 Q2. apply NoDup_Add with (a := f) (l := X ++ Y); [apply Add_app|]. split; assumption. }
      destruct l as [|cl lhl rhl ll rl].
      * (* no left child: the leaf goes there *)
        cbn [is_E]. unfold t1. rewrite find_upd, Fc by exact Kf. cbn [option_map upd]. rewrite Z.eqb_refl. fold c'. fold t1.
        rewrite L1. cbn [Nat.ltb Nat.leb node_size]. destruct (Z.eqb_spec f 0); [contradiction|]. 
        assert (SL : slot true (cid c) t1) by (apply slot_upd; [exact Kf|]; unfold slot; eauto 10).
        destruct (attach_ok true (cid c) f m (mn c) t1 x A c' B) as (y & Y1 & Y2 & Y3 & Y4 & Y5 & Y6 & Y7); auto; try (rewrite ID1; assumption).
        exists y. split; [exact Y1|]. assert (ND : NoDup (ids (tr y))).
        { rewrite Y3. cbn [List.app]. apply NDF; unfold ids in I2, Hf; rewrite R2, map_app in I2, Hf; assumption. }
        apply DONE; auto.
        -- rewrite Y3. unfold ids in I3. rewrite R2, map_app in I3. cbn [map List.app] in *. rewrite in_app_iff in *. cbn [In] in *. tauto.
        -- rewrite Y3. unfold ids. rewrite R2, map_app. intros i Hi. cbn [map List.app In] in *. rewrite in_app_iff in *. cbn [In] in *. tauto.
      * (* the row goes to the node before *)
        cbn [is_E]. destruct (glb (tr x) A c B lh rh _ rr I2 R2 Fc ltac:(discriminate)) as (A' & d & lhd & rhd & ld & EA & Fd).
        assert (Hp : pred x (cid c) = cid d).
        { unfold ids in I6. rewrite R2, map_app in I6. cbn [map] in I6. apply chain_pred in I6. destruct I6 as [I6 _]. rewrite EA, map_app in I6. cbn [map] in I6. rewrite last_snoc in I6. exact I6. }
        assert (Hs : succ x (cid d) = cid c).
        { unfold ids in I6. rewrite R2, EA, <- app_assoc, map_app in I6. cbn [map List.app] in I6. apply chain_pred in I6. tauto. }
        assert (Hdc : cid c <> cid d).
        { intro Q. rewrite EA, <- app_assoc, map_app in HN. cbn [map List.app] in HN. apply nd_mid in HN. destruct HN as (_ & HN & _). apply HN. left. congruence. }
        rewrite Hp. unfold t1. rewrite find_upd, Fd by exact Kf. cbn [option_map upd]. destruct (Z.eqb_spec (cid d) (cid c)); [congruence|]. fold t1.
        pose proof WA as WA'. rewrite EA in WA'. apply Forall_app in WA'. destruct WA' as [WA' Wd]. inversion_clear Wd as [|? ? Wd' _].
        assert (HC1' : cells t1 = A' ++ d :: c' :: B) by (rewrite HC1, EA, <- app_assoc; reflexivity).
        destruct (Nat.ltb_spec (length (els d)) node_size) as [Hlt|Hge2].
        -- eexists. split; [reflexivity|]. assert (HC2 : cells (upd K (cid d) (append K m (mn c)) t1) = A' ++ append K m (mn c) d :: c' :: B).
           { apply cells_at; [rewrite ID1; exact I2|exact HC1']. }
           assert (Wap : wfc (append K m (mn c) d)).
           { destruct Wd' as [D1 D2 D3 D4]. constructor; cbn [append els mn mx].
             - destruct (els d); discriminate.
             - rewrite app_length. cbn. lia.
             - rewrite D3. destruct (els d); [contradiction|reflexivity].
             - rewrite last_app. exact Hmn. }
           assert (ID2 : ids (upd K (cid d) (append K m (mn c)) t1) = ids (tr x)) by (rewrite ids_upd by (intro; reflexivity); exact ID1).
           apply DONE; cbn [tr with_tree]; rewrite ?ID2; auto.
           ++ now apply avl_upd.
           ++ rewrite HC2. apply Forall_app. split; [exact WA'|]. auto.
           ++ rewrite HC2. destruct A'; discriminate.
           ++ intros i Hi. now right.
           ++ rewrite HC2, EA, !flat_app, !flat_cons. cbn [append els flat flat_map]. rewrite app_nil_r, <- !app_assoc. reflexivity.
        -- destruct (Z.eqb_spec f 0); [contradiction|]. destruct (Z.eqb_spec (cid c) (cid d)); [contradiction|].
           rewrite Hs. destruct (Z.eqb_spec (cid c) 0) as [Q|_]; [exfalso; apply I3; rewrite <- Q; apply ids_in; rewrite R2; apply in_elt|].
           assert (SL : slot false (cid d) t1) by (apply slot_upd; [exact Kf|]; unfold slot; eauto 10).
           destruct (attach_ok false (cid d) f m (mn c) t1 x A' d (c' :: B)) as (y & Y1 & Y2 & Y3 & Y4 & Y5 & Y6 & Y7); auto; try (rewrite ID1; assumption).
           exists y. split; [exact Y1|]. assert (IDX : ids (tr x) = (map cid A' ++ [cid d]) ++ cid c :: map cid B) by (unfold ids; rewrite R2, EA, !map_app; reflexivity).
           assert (IDY : ids (tr y) = (map cid A' ++ [cid d]) ++ f :: cid c :: map cid B) by (rewrite Y3, <- !app_assoc; reflexivity).
           apply DONE; auto.
           ++ rewrite IDY. apply NDF; rewrite <- IDX; assumption.
           ++ rewrite IDY. rewrite IDX in I3. rewrite in_app_iff in *. cbn [In] in *. tauto.
           ++ rewrite IDX, IDY. intros i Hi. cbn [In]. rewrite in_app_iff in *. cbn [In] in *. tauto.
           ++ rewrite Y6, EA, flat_app, flat_cons. cbn [flat flat_map]. rewrite app_nil_r, <- !app_assoc. reflexivity.
  - (* left dead end *)
    destruct R4 as (R4 & R5 & R6).
    assert (HW : Forall wfc (cells (tr x))).
    { destruct I4 as [(c0 & Et & _ & Em & _)|[_ W]]; [|exact W]. exfalso. rewrite Et in R2. cbn in R2. destruct A as [|? [|]]; try discriminate. injection R2 as <- <-. unfold TtSeek.below in R4. rewrite Em in R4. discriminate. }
    pose proof HW as HW'. rewrite R2 in HW'. apply Forall_app in HW'. destruct HW' as [WA W2]. inversion_clear W2 as [|? ? Wc WB].
    assert (HA : forall a, In a (flat A) -> le a r).
    { destruct R5 as [->|(A'' & d & -> & Hd)]; [intros a []|]. apply Forall_app in WA. destruct WA as [WA Wd]. inversion_clear Wd as [|? ? Wd' _].
      rewrite flat_app in SA. apply srt_app in SA. destruct SA as (SA1 & SA2 & SA3). unfold flat in SA2. cbn in SA2. rewrite app_nil_r in SA2.
      intros a Ha. rewrite flat_app in Ha. apply in_app_iff in Ha. destruct Ha as [Ha|Ha].
      - destruct (wf_mn key d Wd') as (m & es & E1 & _). eapply (c_trans cmp TO); [apply (SA3 a m Ha); unfold flat; cbn; rewrite E1; now left|].
        apply lt_le. apply (above_els cmp key TO (key r) d m Wd' SA2 Hd). rewrite E1. now left.
      - unfold flat in Ha. cbn in Ha. rewrite app_nil_r in Ha. apply lt_le. apply (above_els cmp key TO (key r) d a Wd' SA2 Hd Ha). }
    assert (HB : forall b, In b (els c ++ flat B) -> le r b).
    { intros b Hb. apply in_app_iff in Hb. destruct Hb as [Hb|Hb]; [apply lt_le; apply (below_els cmp key TO (key r) c b Wc Sc R4 Hb)|].
      destruct (wf_mn key c Wc) as (m & es & E1 & _). eapply (c_trans cmp TO); [apply lt_le; apply (below_els cmp key TO (key r) c m Wc Sc R4); rewrite E1; now left|].
      apply (ScB m b); [rewrite E1; now left|exact Hb]. }
    rewrite Fc. destruct (Nat.ltb_spec (length (els c)) node_size) as [Hlt|Hge].
    + destruct (ins_end_ok true r c (or_introl Wc) Hlt) as [W1 E1]. eexists. split; [reflexivity|].
      apply (in_place x A c B (ins_end K true (key r) r c) [] (els c)); auto.
      * now apply avl_upd.
      * now apply cells_at.
      * intros a Ha. rewrite app_nil_r in Ha. auto.
    + destruct (Z.eqb_spec f 0); [contradiction|].
      destruct (attach_ok true (cid c) f r (Some (key r)) (tr x) x A c B) as (y & Y1 & Y2 & Y3 & Y4 & Y5 & Y6 & Y7); auto.
      exists y. split; [exact Y1|].
      assert (IDX : ids (tr x) = map cid A ++ cid c :: map cid B) by (unfold ids; rewrite R2, map_app; reflexivity).
      split; [constructor; auto|split].
      * rewrite Y3. cbn [List.app]. apply NoDup_Add with (a := f) (l := map cid A ++ cid c :: map cid B); [apply Add_app|]. rewrite <- IDX. split; assumption.
      * rewrite Y3. rewrite IDX in I3. cbn [List.app] in *. rewrite in_app_iff in *. cbn [In] in *. tauto.
      * right. split; [|exact Y4]. intro Q. rewrite Q in Y5. contradiction.
      * rewrite Y6. cbn [List.app]. apply srt_insert; auto. rewrite R2, flat_app, flat_cons in I5. exact I5.
      * exists (flat A), (els c ++ flat B). rewrite !rows_flat. split; [rewrite R2, flat_app, flat_cons; reflexivity|rewrite Y6; reflexivity].
      * rewrite IDX, Y3. intros i Hi. cbn [In List.app] in *. rewrite in_app_iff in *. cbn [In] in *. tauto.
  - (* right dead end *)
    destruct R4 as (R4 & R5 & R6).
    assert (WW : (Forall wfc A /\ wfc c /\ Forall wfc B) \/ (A = [] /\ B = [] /\ els c = [])).
    { destruct I4 as [(c0 & Et & Ee & _)|[_ W]].
      - right. rewrite Et in R2. cbn in R2. destruct A as [|? [|]]; try discriminate. injection R2 as <- <-. auto.
      - left. rewrite R2 in W. apply Forall_app in W. destruct W as [WA W2]. inversion_clear W2. auto. }
    assert (Wc : wfc c \/ els c = []) by tauto. assert (WA : Forall wfc A) by (destruct WW as [|(-> & _)]; [tauto|constructor]). assert (WB : Forall wfc B) by (destruct WW as [|(_ & -> & _)]; [tauto|constructor]).
    assert (HA : forall a, In a (flat A ++ els c) -> le a r).
    { destruct WW as [(_ & Wc' & _)|(-> & _ & ->)]; [|intros a []]. intros a Ha. apply in_app_iff in Ha. destruct Ha as [Ha|Ha].
      - destruct (wf_mn key c Wc') as (m & es & E1 & _). eapply (c_trans cmp TO); [apply (SAx a m Ha); apply in_app_iff; left; rewrite E1; now left|].
        apply lt_le. apply (above_els cmp key TO (key r) c m Wc' Sc R5). rewrite E1. now left.
      - apply lt_le. apply (above_els cmp key TO (key r) c a Wc' Sc R5 Ha). }
    assert (HB : forall b, In b (flat B) -> le r b).
    { intros b Hb. apply in_flat in Hb. destruct Hb as (d & Hd & Hb). rewrite Forall_forall in WB, R3. apply lt_le.
      apply (below_els cmp key TO (key r) d b (WB d Hd)); [|apply R3; exact Hd|exact Hb].
      apply in_split in Hd. destruct Hd as (X & Y & ->). rewrite flat_app, flat_cons in SB. apply srt_app in SB. destruct SB as (_ & SB & _). apply srt_app in SB. tauto. }
    rewrite Fc. destruct (Nat.ltb_spec (length (els c)) node_size) as [Hlt|Hge].
    + destruct (ins_end_ok false r c Wc Hlt) as [W1 E1]. eexists. split; [reflexivity|].
      apply (in_place x A c B (ins_end K false (key r) r c) (els c) []); auto.
      * now apply avl_upd.
      * now apply cells_at.
      * now rewrite app_nil_r.
    + destruct (Z.eqb_spec f 0); [contradiction|].
      assert (Wc' : wfc c) by (destruct Wc as [|Q]; [assumption|rewrite Q in Hge; cbn in Hge; unfold node_size in Hge; lia]).
      destruct (attach_ok false (cid c) f r (Some (key r)) (tr x) x A c B) as (y & Y1 & Y2 & Y3 & Y4 & Y5 & Y6 & Y7); auto.
      { rewrite R2. apply Forall_app. auto. }
      exists y. split; [exact Y1|].
      assert (IDX : ids (tr x) = (map cid A ++ [cid c]) ++ map cid B) by (unfold ids; rewrite R2, map_app, <- app_assoc; reflexivity).
      assert (IDY : ids (tr y) = (map cid A ++ [cid c]) ++ f :: map cid B) by (rewrite Y3, <- app_assoc; reflexivity).
      split; [constructor; auto|split].
      * rewrite IDY. apply NoDup_Add with (a := f) (l := (map cid A ++ [cid c]) ++ map cid B); [apply Add_app|]. rewrite <- IDX. split; assumption.
      * rewrite IDY. rewrite IDX in I3. rewrite in_app_iff in *. cbn [In] in *. tauto.
      * right. split; [|exact Y4]. intro Q. rewrite Q in Y5. contradiction.
      * rewrite Y6. replace (flat A ++ (els c ++ [r]) ++ flat B) with ((flat A ++ els c) ++ r :: flat B) by (rewrite <- !app_assoc; reflexivity). apply srt_insert; auto.
        rewrite R2, flat_app, flat_cons, app_assoc in I5. exact I5.
      * exists (flat A ++ els c), (flat B). rewrite !rows_flat. split; [rewrite R2, flat_app, flat_cons, app_assoc; reflexivity|rewrite Y6, <- !app_assoc; reflexivity].
      * rewrite IDX, IDY. intros i Hi. cbn [In]. rewrite in_app_iff in *. cbn [In] in *. tauto.
Qed.
End A.
