(** The T-tree index: order, search and the walk along the chain. *)
From Coq Require Import List ZArith Bool Lia Sorted.
From Verif Require Import TtModel TtSpec TtProof TtShape TtChain.
Import ListNotations.
Open Scope Z_scope.

Lemma ss_app {A} (R : A -> A -> Prop) l1 l2 : StronglySorted R (l1 ++ l2) <-> StronglySorted R l1 /\ StronglySorted R l2 /\ forall a b, In a l1 -> In b l2 -> R a b.
Proof.
  induction l1 as [|a l1 IH]; cbn [List.app].
  - split; [intro H; split; [constructor|split; [exact H|intros a b []]]|tauto].
  - split.
    + intro H. apply StronglySorted_inv in H. destruct H as [H1 H2]. apply IH in H1. destruct H1 as (H1 & H3 & H4). rewrite Forall_forall in H2.
      split; [constructor; [exact H1|apply Forall_forall; intros; apply H2; apply in_app_iff; auto]|]. split; [exact H3|].
      intros x y [->|Hx] Hy; [apply H2; apply in_app_iff; auto|auto].
    + intros (H1 & H2 & H3). apply StronglySorted_inv in H1. destruct H1 as [H1 H4]. constructor.
      * apply IH. split; [exact H1|]. split; [exact H2|]. intros; apply H3; [now right|assumption].
      * apply Forall_app. split; [exact H4|]. apply Forall_forall. intros y Hy. apply H3; [now left|exact Hy].
Qed.

Section O.
Context {K : Type}.
Variable cmp : K -> K -> comparison.
Variable key : Z -> K.
Hypothesis TO : total_order cmp.
Notation le := (fun a b => cmp (key a) (key b) <> Gt).
Notation srt := (sorted cmp key).
Notation ocmp := (ocmp K cmp). Notation field := (field K key). Notation wfc := (wfc key).
Implicit Types (c d : cell K).

Lemma c_refl a : cmp a a = Eq. Proof. apply TO. Qed.
Lemma c_flip a b : cmp b a = CompOpp (cmp a b). Proof. apply TO. Qed.
Lemma c_trans (a b c : K) : cmp a b <> Gt -> cmp b c <> Gt -> cmp a c <> Gt. Proof. apply TO. Qed.
Lemma gt_lt a b : cmp a b = Gt <-> cmp b a = Lt.
Proof. rewrite (c_flip a b). destruct (cmp a b); cbn; split; congruence. Qed.
Lemma nlt_le a b : cmp a b <> Lt -> cmp b a <> Gt.
Proof. rewrite (c_flip a b). destruct (cmp a b); cbn; congruence. Qed.
Lemma lt_le a b : cmp a b = Lt -> cmp a b <> Gt. Proof. congruence. Qed.
Lemma lt_le_trans (a b c : K) : cmp a b = Lt -> cmp b c <> Gt -> cmp a c = Lt.
Proof.
  intros H1 H2. destruct (cmp a c) eqn:E1; [|reflexivity|].
  - assert (cmp c a <> Gt) by (rewrite (c_flip a c), E1; discriminate). exfalso. apply (c_trans b c a H2 H). apply gt_lt. exact H1.
  - exfalso. apply (c_trans a b c); [congruence|exact H2|exact E1].
Qed.
Lemma le_lt_trans (a b c : K) : cmp a b <> Gt -> cmp b c = Lt -> cmp a c = Lt.
Proof.
  intros H1 H2. destruct (cmp a c) eqn:E1; [|reflexivity|].
  - assert (cmp c a <> Gt) by (rewrite (c_flip a c), E1; discriminate). exfalso. apply (c_trans c a b H H1). apply gt_lt. exact H2.
  - exfalso. apply (c_trans a b c); [exact H1|congruence|exact E1].
Qed.
Lemma eq_le a b : cmp a b = Eq -> cmp a b <> Gt /\ cmp b a <> Gt.
Proof. intro H. rewrite (c_flip a b), H. split; discriminate. Qed.

(* ---- sorted rows and the extreme values of nodes ---- *)
Lemma srt_app a b : srt (a ++ b) <-> srt a /\ srt b /\ forall x y, In x a -> In y b -> le x y.
Proof. apply (ss_app le). Qed.
Lemma srt_insert L r R : srt (L ++ R) -> (forall a, In a L -> le a r) -> (forall b, In b R -> le r b) -> srt (L ++ r :: R).
Proof.
  intros H HL HR. apply srt_app in H. destruct H as (H1 & H2 & H3). apply srt_app. split; [exact H1|]. split.
  - constructor; [exact H2|]. apply Forall_forall. exact HR.
  - intros x y Hx [<-|Hy]; auto.
Qed.
Lemma srt_delete L r R : srt (L ++ r :: R) -> srt (L ++ R).
Proof.
  intro H. apply srt_app in H. destruct H as (H1 & H2 & H3). apply StronglySorted_inv in H2. apply srt_app. split; [exact H1|]. split; [tauto|].
  intros x y Hx Hy. apply H3; [exact Hx|now right].
Qed.
Lemma last_in l z : last_error l = Some z -> In z l.
Proof. apply nth_error_In. Qed.
Lemma wf_mn c : wfc c -> exists m es, els c = m :: es /\ mn c = Some (key m).
Proof. intros [H _ H1 _]. destruct (els c) as [|m es]; [contradiction|]. exists m, es. auto. Qed.
Lemma wf_mx c : wfc c -> exists es m, els c = es ++ [m] /\ mx c = Some (key m).
Proof. intros [H _ _ H1]. destruct (exists_last H) as (es & m & E1). exists es, m. rewrite E1 in *. rewrite last_app in H1. auto. Qed.

(* k < mn, k > mx *)
Definition below (k : K) c : bool := is_lt (ocmp (Some k) (mn c)).
Definition above (k : K) c : bool := is_gt (ocmp (Some k) (mx c)).
Lemma below_els k c e : wfc c -> srt (els c) -> below k c = true -> In e (els c) -> cmp k (key e) = Lt.
Proof.
  intros W S1 H He. destruct (wf_mn c W) as (m & es & E1 & E2). unfold below in H. rewrite E2 in H. cbn in H. rewrite E1 in *. cbn in H.
  assert (H1 : cmp k (key m) = Lt) by (destruct (cmp k (key m)); try discriminate; reflexivity).
  destruct He as [->|He]; [exact H1|]. apply StronglySorted_inv in S1. destruct S1 as [_ S1]. rewrite Forall_forall in S1.
  eapply lt_le_trans; [exact H1|]. apply S1. exact He.
Qed.
Lemma above_els k c e : wfc c -> srt (els c) -> above k c = true -> In e (els c) -> cmp (key e) k = Lt.
Proof.
  intros W S1 H He. destruct (wf_mx c W) as (es & m & E1 & E2). unfold above in H. rewrite E2 in H. cbn in H. rewrite E1 in *.
  assert (H1 : cmp (key m) k = Lt) by (apply gt_lt; destruct (cmp k (key m)); try discriminate; reflexivity).
  apply in_app_iff in He. destruct He as [He|[->|[]]]; [|exact H1]. apply srt_app in S1. destruct S1 as (_ & _ & S1).
  eapply le_lt_trans; [|exact H1]. apply S1; [exact He|now left].
Qed.
(* mn <= k: whatever is before the node is not greater; k <= mx: whatever is after is not less *)
Lemma nbelow_mn k c : wfc c -> below k c = false -> exists m es, els c = m :: es /\ cmp (key m) k <> Gt.
Proof.
  intros W H. destruct (wf_mn c W) as (m & es & E1 & E2). exists m, es. split; [exact E1|]. unfold below in H. rewrite E2 in H. cbn in H.
  apply nlt_le. destruct (cmp k (key m)); discriminate.
Qed.
Lemma nabove_mx k c : wfc c -> above k c = false -> exists es m, els c = es ++ [m] /\ cmp k (key m) <> Gt.
Proof.
  intros W H. destruct (wf_mx c W) as (es & m & E1 & E2). exists es, m. split; [exact E1|]. unfold above in H. rewrite E2 in H. cbn in H.
  destruct (cmp k (key m)); discriminate.
Qed.
Lemma flat_cons c (B : list (cell K)) : flat (c :: B) = els c ++ flat B. Proof. reflexivity. Qed.
Lemma in_flat e (cs : list (cell K)) : In e (flat cs) <-> exists c, In c cs /\ In e (els c).
Proof. apply in_flat_map. Qed.
Definition mn_le c d := ocmp (mn c) (mn d) <> Gt.
Definition mx_le c d := ocmp (mx c) (mx d) <> Gt.
Lemma wf_sorted (cs : list (cell K)) : Forall wfc cs -> srt (flat cs) -> StronglySorted mn_le cs /\ StronglySorted mx_le cs.
Proof.
  induction cs as [|c cs IH]; intros W H; [split; constructor|]. inversion_clear W as [|? ? Wc Wcs]. rewrite flat_cons in H. apply srt_app in H. destruct H as (_ & H2 & H3).
  destruct (IH Wcs H2) as [I1 I2]. rewrite Forall_forall in Wcs. split; constructor; auto; apply Forall_forall; intros d Hd; pose proof (Wcs d Hd) as Wd.
  - destruct (wf_mn c Wc) as (m & es & E1 & E2), (wf_mn d Wd) as (m' & es' & E3 & E4). unfold mn_le. rewrite E2, E4. cbn. apply H3; [rewrite E1; now left|].
    apply in_flat. exists d. split; [exact Hd|]. rewrite E3. now left.
  - destruct (wf_mx c Wc) as (es & m & E1 & E2), (wf_mx d Wd) as (es' & m' & E3 & E4). unfold mx_le. rewrite E2, E4. cbn. apply H3; [rewrite E1; apply in_elt|].
    apply in_flat. exists d. split; [exact Hd|]. rewrite E3. apply in_elt.
Qed.
Lemma lt_true (c : comparison) : is_lt c = true <-> c = Lt. Proof. destruct c; cbn; split; congruence. Qed.
Lemma gt_true (c : comparison) : is_gt c = true <-> c = Gt. Proof. destruct c; cbn; split; congruence. Qed.
Lemma below_up k c d : mn_le c d -> below k c = true -> below k d = true.
Proof.
  unfold mn_le, below. rewrite !lt_true. destruct (mn c) as [a|]; cbn; [|discriminate]. destruct (mn d) as [b|]; cbn; [|congruence].
  intros H1 H2. eapply lt_le_trans; eauto.
Qed.
Lemma above_down k c d : mx_le c d -> above k d = true -> above k c = true.
Proof.
  unfold mx_le, above. rewrite !gt_true. destruct (mx d) as [a|]; cbn; destruct (mx c) as [b|]; cbn; try congruence.
  intros H1 H2. apply gt_lt. apply gt_lt in H2. eapply le_lt_trans; eauto.
Qed.

(* ---- the two searches ---- *)
Notation rightmost := (rightmost K cmp). Notation leftmost := (leftmost K cmp).
Lemma slot_lift_l left i c lh rh l r : NoDup (ids (N c lh rh l r)) -> slot left i l -> slot left i (N c lh rh l r).
Proof. intros Hn Hs. pose proof (slot_in _ _ _ Hs) as Hi. destruct Hs as (c2 & a & b & l2 & r2 & H & H2). unfold slot. rewrite find_l by assumption. eauto 10. Qed.
Lemma slot_lift_r left i c lh rh l r : NoDup (ids (N c lh rh l r)) -> slot left i r -> slot left i (N c lh rh l r).
Proof. intros Hn Hs. pose proof (slot_in _ _ _ Hs) as Hi. destruct Hs as (c2 & a & b & l2 & r2 & H & H2). unfold slot. rewrite find_r by assumption. eauto 10. Qed.
Lemma rightmost_ok k (t : tree K) : forall A B rb, t <> E -> NoDup (ids t) -> StronglySorted mn_le (cells t) ->
  (rb = None -> A = []) -> (forall d, rb = Some d -> (exists A', A = A' ++ [d]) /\ below k d = false) -> Forall (fun b => below k b = true) B ->
  exists bd A' c B', rightmost k t rb = Some (bd, cid c) /\ A ++ cells t ++ B = A' ++ c :: B' /\ Forall (fun b => below k b = true) B' /\
    match bd with
    | Bounding => below k c = false /\ above k c = false
    | DeadLeft => below k c = true /\ (A' = [] \/ exists A'' d, A' = A'' ++ [d] /\ above k d = true) /\ slot true (cid c) t
    | DeadRight => below k c = false /\ above k c = true /\ slot false (cid c) t
    end.
Proof.
  induction t as [|c lh rh l IHl r IHr]; intros A B rb Ht Hn Hs Hr1 Hr2 HB; [contradiction|]. clear Ht.
  pose proof (nd_N _ _ _ _ _ Hn) as (Hnl & Hnr & H1 & H2 & H3). cbn [cells] in Hs. apply ss_app in Hs. destruct Hs as (Sl & Sr & Slr).
  apply StronglySorted_inv in Sr. destruct Sr as [Sr Sc]. cbn [TtModel.rightmost cells]. fold (below k c). destruct (below k c) eqn:Eb.
  - assert (HB' : Forall (fun b => below k b = true) (c :: cells r ++ B)).
    { constructor; [exact Eb|]. apply Forall_app. split; [|exact HB]. rewrite Forall_forall in *. intros d Hd. eapply below_up; [apply Sc; exact Hd|exact Eb]. }
    destruct l as [|c2 lh2 rh2 l2 r2].
    + destruct rb as [d|].
      * destruct (Hr2 d eq_refl) as [[A' EA] Ed]. fold (above k d). destruct (above k d) eqn:Ea.
        -- exists DeadLeft, A, c, (cells r ++ B). split; [reflexivity|]. split; [reflexivity|]. split; [now inversion HB'|]. split; [exact Eb|].
           split; [right; eauto|]. unfold slot. cbn [find]. rewrite Z.eqb_refl. eauto 10.
        -- exists Bounding, A', d, (c :: cells r ++ B). split; [reflexivity|]. rewrite EA, <- app_assoc. split; [reflexivity|]. auto.
      * exists DeadLeft, A, c, (cells r ++ B). split; [reflexivity|]. split; [reflexivity|]. split; [now inversion HB'|]. split; [exact Eb|].
        split; [left; auto|]. unfold slot. cbn [find]. rewrite Z.eqb_refl. eauto 10.
    + destruct (IHl A (c :: cells r ++ B) rb) as (bd & A' & c' & B' & E1 & E2 & E3 & E4); auto; [discriminate|].
      exists bd, A', c', B'. split; [exact E1|]. split; [rewrite <- E2; now rewrite <- app_assoc|]. split; [exact E3|].
      destruct bd; [exact E4|split; [tauto|split; [tauto|apply slot_lift_l; tauto]]|split; [tauto|split; [tauto|apply slot_lift_l; tauto]]].
  - destruct r as [|c2 lh2 rh2 l2 r2].
    + fold (above k c). destruct (above k c) eqn:Ea.
      * exists DeadRight, (A ++ cells l), c, B. split; [reflexivity|]. split; [now rewrite <- !app_assoc|]. split; [exact HB|]. split; [exact Eb|]. split; [exact Ea|].
        unfold slot. cbn [find]. rewrite Z.eqb_refl. eauto 10.
      * exists Bounding, (A ++ cells l), c, B. split; [reflexivity|]. split; [now rewrite <- !app_assoc|]. auto.
    + destruct (IHr (A ++ cells l ++ [c]) B (Some c)) as (bd & A' & c' & B' & E1 & E2 & E3 & E4); auto; try discriminate.
      { intros d Hd. injection Hd as <-. split; [exists (A ++ cells l); now rewrite app_assoc|exact Eb]. }
      exists bd, A', c', B'. split; [exact E1|]. split; [rewrite <- E2; now rewrite <- !app_assoc|]. split; [exact E3|].
      destruct bd; [exact E4|split; [tauto|split; [tauto|apply slot_lift_r; tauto]]|split; [tauto|split; [tauto|apply slot_lift_r; tauto]]].
Qed.
Lemma leftmost_ok k (t : tree K) : forall A B lb, t <> E -> NoDup (ids t) -> StronglySorted mx_le (cells t) ->
  (lb = None -> B = []) -> (forall d, lb = Some d -> (exists B', B = d :: B') /\ above k d = false) -> Forall (fun b => above k b = true) A ->
  exists bd A' c B', leftmost k t lb = Some (bd, cid c) /\ A ++ cells t ++ B = A' ++ c :: B' /\ Forall (fun b => above k b = true) A' /\
    match bd with
    | Bounding => below k c = false /\ above k c = false
    | DeadRight => above k c = true /\ (B' = [] \/ exists d B'', B' = d :: B'' /\ below k d = true)
    | DeadLeft => above k c = false /\ below k c = true
    end.
Proof.
  induction t as [|c lh rh l IHl r IHr]; intros A B lb Ht Hn Hs Hr1 Hr2 HB; [contradiction|]. clear Ht.
  pose proof (nd_N _ _ _ _ _ Hn) as (Hnl & Hnr & H1 & H2 & H3). cbn [cells] in Hs. apply ss_app in Hs. destruct Hs as (Sl & Sr & Slr).
  apply StronglySorted_inv in Sr. destruct Sr as [Sr Sc]. cbn [TtModel.leftmost cells]. fold (above k c). destruct (above k c) eqn:Ea.
  - assert (HB' : Forall (fun b => above k b = true) (A ++ cells l)).
    { apply Forall_app. split; [exact HB|]. apply Forall_forall. intros d Hd. eapply above_down; [apply Slr; [exact Hd|now left]|exact Ea]. }
    destruct r as [|c2 lh2 rh2 l2 r2].
    + destruct lb as [d|].
      * destruct (Hr2 d eq_refl) as [[B' EA] Ed]. fold (below k d). destruct (below k d) eqn:Eb.
        -- exists DeadRight, (A ++ cells l), c, B. split; [reflexivity|]. split; [now rewrite <- !app_assoc|]. split; [exact HB'|]. split; [exact Ea|]. right. eauto.
        -- exists Bounding, (A ++ cells l ++ [c]), d, B'. split; [reflexivity|]. rewrite EA, <- !app_assoc. split; [reflexivity|]. split; [|auto].
           rewrite app_assoc. apply Forall_app. split; [exact HB'|]. constructor; [exact Ea|constructor].
      * exists DeadRight, (A ++ cells l), c, B. split; [reflexivity|]. split; [now rewrite <- !app_assoc|]. split; [exact HB'|]. split; [exact Ea|]. auto.
    + destruct (IHr (A ++ cells l ++ [c]) B lb) as (bd & A' & c' & B' & E1 & E2 & E3 & E4); auto; try discriminate.
      { rewrite app_assoc. apply Forall_app. split; [exact HB'|]. constructor; [exact Ea|constructor]. }
      exists bd, A', c', B'. split; [exact E1|]. split; [rewrite <- E2; now rewrite <- !app_assoc|]. auto.
  - destruct l as [|c2 lh2 rh2 l2 r2].
    + fold (below k c). destruct (below k c) eqn:Eb.
      * exists DeadLeft, A, c, (cells r ++ B). split; [reflexivity|]. split; [reflexivity|]. auto.
      * exists Bounding, A, c, (cells r ++ B). split; [reflexivity|]. split; [reflexivity|]. auto.
    + destruct (IHl A (c :: cells r ++ B) (Some c)) as (bd & A' & c' & B' & E1 & E2 & E3 & E4); auto; try discriminate.
      { intros d Hd. injection Hd as <-. split; [eauto|exact Ea]. }
      exists bd, A', c', B'. split; [exact E1|]. split; [rewrite <- E2; now rewrite <- !app_assoc|]. auto.
Qed.

(* ---- the walk ---- *)
Lemma scan_ok here (x : ix K) k : NoDup (ids (tr x)) -> ~ In 0 (ids (tr x)) -> chain (ids (tr x)) x -> StronglySorted mn_le (cells (tr x)) ->
  forall B A c n, cells (tr x) = A ++ c :: B -> (length B < n)%nat ->
  exists res, scan K cmp n here x k (cid c) = Some res /\
    match res with
    | Some d => In d (c :: B) /\ here d = true
    | None => forall d, In d (c :: B) -> here d = true -> is_gt (ocmp (mn d) (Some k)) = true
    end.
Proof.
  intros Hn H0 Hc Hs. induction B as [|e B IH]; intros A c n HC Hlen; (destruct n as [|n]; [lia|]); cbn [scan].
  - destruct (find_cell c (tr x) Hn) as (lh & rh & l & r & Ef); [rewrite HC; apply in_elt|]. rewrite Ef. destruct (here c) eqn:Eh.
    + eexists. split; [reflexivity|]. cbn. auto.
    + assert (Hsu : succ x (cid c) = 0). { unfold ids in Hc. rewrite HC, map_app in Hc. cbn in Hc. apply chain_pred in Hc. tauto. }
      rewrite Hsu. cbn. eexists. split; [reflexivity|]. cbn. intros d [<-|[]] Hd. congruence.
  - destruct (find_cell c (tr x) Hn) as (lh & rh & l & r & Ef); [rewrite HC; apply in_elt|]. rewrite Ef. destruct (here c) eqn:Eh.
    + eexists. split; [reflexivity|]. cbn. auto.
    + assert (Hsu : succ x (cid c) = cid e). { unfold ids in Hc. rewrite HC, map_app in Hc. cbn in Hc. apply chain_pred in Hc. tauto. }
      assert (HC2 : cells (tr x) = (A ++ [c]) ++ e :: B) by (rewrite HC, <- app_assoc; reflexivity).
      destruct (find_cell e (tr x) Hn) as (lh2 & rh2 & l2 & r2 & Ef2); [rewrite HC2; apply in_elt|]. rewrite Hsu.
      destruct (Z.eqb_spec (cid e) 0) as [Ee|_]; [exfalso; apply H0; rewrite <- Ee; unfold ids; apply in_map; rewrite HC2; apply in_elt|].
      rewrite Ef2. destruct (is_gt (ocmp (mn e) (Some k))) eqn:Eg.
      * eexists. split; [reflexivity|]. cbn. intros d [<-|[<-|Hd]] Hh; [congruence|exact Eg|].
        rewrite HC2 in Hs. apply ss_app in Hs. destruct Hs as (_ & Hs & _). apply StronglySorted_inv in Hs. destruct Hs as [_ Hs]. rewrite Forall_forall in Hs.
        specialize (Hs d Hd). unfold mn_le in Hs. rewrite gt_true in *. destruct (mn e) as [a|]; cbn in *; [|discriminate]. destruct (mn d) as [b|]; cbn in *; [|congruence].
        apply gt_lt. apply gt_lt in Eg. eapply lt_le_trans; eauto.
      * destruct (IH (A ++ [c]) e n HC2 ltac:(cbn in Hlen; lia)) as (res & R1 & R2). exists res. split; [exact R1|]. destruct res as [d|].
        -- destruct R2 as [R2 R3]. split; [now right|exact R3].
        -- intros d [<-|Hd] Hh; [congruence|auto].
Qed.
Lemma count_cells (t : tree K) : count K t = length (cells t).
Proof. induction t as [|c lh rh l IHl r IHr]; [reflexivity|]. cbn [count cells]. rewrite app_length. cbn. lia. Qed.
End O.
