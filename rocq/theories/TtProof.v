(** The T-tree index: shape. *)
From Coq Require Import List ZArith Bool Lia Sorted Permutation.
From Verif Require Import TtModel TtSpec.
Import ListNotations.
Open Scope Z_scope.
#[global] Arguments E {K}.
#[global] Arguments N {K} c lh rh l r.
#[global] Arguments cid {K} c.
#[global] Arguments els {K} c.
#[global] Arguments mn {K} c.
#[global] Arguments mx {K} c.
#[global] Arguments tr {K} i.
#[global] Arguments pred {K} i _.
#[global] Arguments succ {K} i _.
#[global] Arguments minp {K} i.
#[global] Arguments maxp {K} i.

Fixpoint cells {K} (t : tree K) : list (cell K) :=
  match t with E => [] | N c _ _ l r => cells l ++ c :: cells r end.
Definition ids {K} (t : tree K) : list Z := map cid (cells t).
Definition flat {K} (cs : list (cell K)) : list Z := flat_map els cs.
Lemma rows_flat {K} (t : tree K) : rows t = flat (cells t).
Proof. induction t as [|c lh rh l IHl r IHr]; [reflexivity|]. cbn. unfold flat in *. rewrite flat_map_app. cbn. now rewrite IHl, IHr. Qed.
Lemma nodes_ids {K} (t : tree K) : nodes t = ids t.
Proof. unfold ids. induction t as [|c lh rh l IHl r IHr]; [reflexivity|]. cbn. rewrite map_app. cbn. now rewrite IHl, IHr. Qed.
Lemma ids_N {K} (c : cell K) lh rh l r : ids (N c lh rh l r) = ids l ++ cid c :: ids r.
Proof. unfold ids. cbn. now rewrite map_app. Qed.
Lemma levels_nonneg {K} (t : tree K) : 0 <= levels t.
Proof. induction t; cbn [levels]; lia. Qed.
Lemma levels_0 {K} (t : tree K) : levels t = 0 -> t = E.
Proof. destruct t as [|c lh rh l r]; auto. cbn [levels]. pose proof (levels_nonneg l). lia. Qed.

(* stored heights are right, sides differ by at most one *)
Fixpoint avl {K} (t : tree K) : Prop :=
  match t with
  | E => True
  | N c lh rh l r => lh = levels l /\ rh = levels r /\ -1 <= levels l - levels r <= 1 /\ avl l /\ avl r
  end.
Lemma avl_balanced {K} (t : tree K) : avl t -> balanced t.
Proof. induction t; cbn; tauto. Qed.
Lemma avl_ht {K} (t : tree K) : avl t -> ht K t = levels t.
Proof. destruct t; cbn [avl ht levels]; [reflexivity|]. intros (-> & -> & _). lia. Qed.

Ltac nd H := rewrite ids_N in H; apply NoDup_remove in H.
Section F.
Context {K : Type}.
Implicit Types (t l r u : tree K) (c d : cell K).

Lemma nd_N c lh rh l r : NoDup (ids (N c lh rh l r)) ->
  NoDup (ids l) /\ NoDup (ids r) /\ ~ In (cid c) (ids l) /\ ~ In (cid c) (ids r) /\ (forall i, In i (ids l) -> ~ In i (ids r)).
Proof.
  rewrite ids_N. intro H. pose proof (NoDup_remove_2 _ _ _ H) as H2. apply NoDup_remove_1 in H.
  rewrite in_app_iff in H2. split; [|split; [|split; [tauto|split; [tauto|]]]].
  - induction (ids l) as [|a L IH]; [constructor|]. cbn in H. inversion H; subst. constructor; [rewrite in_app_iff in *; tauto|]. apply IH; auto. cbn in H2. tauto.
  - induction (ids l) as [|a L IH]; [exact H|]. cbn in H. inversion H; subst. apply IH; auto. cbn in H2. tauto.
  - induction (ids l) as [|a L IH]; intros i Hi; [destruct Hi|]. cbn in H. inversion H as [|? ? Ha Hl]; subst. rewrite in_app_iff in Ha.
    destruct Hi as [->|Hi]; [tauto|]. apply IH; auto. cbn in H2. tauto.
Qed.

(* ---- find ---- *)
Lemma find_in i t u : find K i t = Some u -> In i (ids t).
Proof.
  induction t as [|c lh rh l IHl r IHr]; cbn [find]; [discriminate|]. rewrite ids_N, in_app_iff. cbn.
  destruct (Z.eqb_spec (cid c) i); [auto|]. destruct (find K i l) eqn:E1; intro H; [left; apply IHl; congruence|right; right; auto].
Qed.
Lemma find_none i t : ~ In i (ids t) -> find K i t = None.
Proof. intro H. destruct (find K i t) eqn:E1; [|reflexivity]. apply find_in in E1. contradiction. Qed.
Lemma find_node i t u : find K i t = Some u -> exists c lh rh l r, u = N c lh rh l r /\ cid c = i.
Proof.
  induction t as [|c lh rh l IHl r IHr]; cbn [find]; [discriminate|]. destruct (Z.eqb_spec (cid c) i); [intro H; injection H as <-; eauto 10|].
  destruct (find K i l) eqn:E1; intro H; [injection H as <-; auto|auto].
Qed.
Lemma find_split i t u : find K i t = Some u -> exists A B, cells t = A ++ cells u ++ B.
Proof.
  induction t as [|c lh rh l IHl r IHr]; cbn [find]; [discriminate|]. destruct (Z.eqb_spec (cid c) i) as [Hc|Hc].
  - intro H; injection H as <-. exists [], []. cbn. now rewrite app_nil_r.
  - destruct (find K i l) eqn:E1; intro H.
    + injection H as ->. destruct (IHl eq_refl) as (A & B & HA). exists A, (B ++ c :: cells r). cbn. rewrite HA. now rewrite <- !app_assoc.
    + destruct (IHr H) as (A & B & HA). exists (cells l ++ c :: A), B. cbn. rewrite HA. now rewrite <- !app_assoc.
Qed.
Lemma find_l i c lh rh l r : NoDup (ids (N c lh rh l r)) -> In i (ids l) -> find K i (N c lh rh l r) = find K i l.
Proof.
  intros Hn Hi. destruct (nd_N _ _ _ _ _ Hn) as (_ & _ & H1 & _ & H2). cbn [find]. destruct (Z.eqb_spec (cid c) i) as [Ec|]; [subst i; contradiction|].
  destruct (find K i l) eqn:E1; [reflexivity|]. apply find_none. auto.
Qed.
Lemma find_r i c lh rh l r : NoDup (ids (N c lh rh l r)) -> In i (ids r) -> find K i (N c lh rh l r) = find K i r.
Proof.
  intros Hn Hi. destruct (nd_N _ _ _ _ _ Hn) as (_ & _ & _ & H1 & H2). cbn [find]. destruct (Z.eqb_spec (cid c) i) as [Ec|]; [subst i; contradiction|].
  rewrite (find_none i l); [reflexivity|]. intro H. exact (H2 i H Hi).
Qed.
Lemma find_cell c t : NoDup (ids t) -> In c (cells t) -> exists lh rh l r, find K (cid c) t = Some (N c lh rh l r).
Proof.
  induction t as [|d lh rh l IHl r IHr]; intros Hn Hc; [destruct Hc|]. pose proof (nd_N _ _ _ _ _ Hn) as (Hl & Hr & H1 & H2 & H3).
  cbn in Hc. apply in_app_iff in Hc. destruct Hc as [Hc|[->|Hc]].
  - rewrite find_l; auto. apply in_map. exact Hc.
  - cbn [find]. rewrite Z.eqb_refl. eauto.
  - rewrite find_r; auto. apply in_map. exact Hc.
Qed.
Lemma find_avl i t u : avl t -> find K i t = Some u -> avl u.
Proof.
  induction t as [|c lh rh l IHl r IHr]; cbn [find]; [discriminate|]. intros Ha. destruct (cid c =? i); [intro H; injection H as <-; exact Ha|].
  destruct Ha as (_ & _ & _ & Hl & Hr). destruct (find K i l) eqn:E1; intro H; [injection H as <-; auto|auto].
Qed.
Lemma last_no_right t A d : NoDup (ids t) -> cells t = A ++ [d] -> exists lh rh l, find K (cid d) t = Some (N d lh rh l E).
Proof.
  revert A. induction t as [|c lh rh l IHl r IHr]; intros A Hn Hc; [destruct A; discriminate|].
  pose proof (nd_N _ _ _ _ _ Hn) as (Hl & Hr & H1 & H2 & H3). destruct r as [|c2 lh2 rh2 l2 r2].
  - cbn in Hc. apply app_inj_tail in Hc. destruct Hc as [_ <-]. cbn [find]. rewrite Z.eqb_refl. eauto.
  - assert (Hd : exists A2, cells (N c2 lh2 rh2 l2 r2) = A2 ++ [d]).
    { destruct (exists_last (l:=cells (N c2 lh2 rh2 l2 r2))) as (A2 & d2 & E2); [cbn; intro H; destruct (cells l2); discriminate|].
      exists A2. rewrite E2. change (cells (N c lh rh l (N c2 lh2 rh2 l2 r2))) with (cells l ++ c :: cells (N c2 lh2 rh2 l2 r2)) in Hc. rewrite E2 in Hc.
      change (cells l ++ c :: A2 ++ [d2]) with (cells l ++ (c :: A2) ++ [d2]) in Hc. rewrite app_assoc in Hc. apply app_inj_tail in Hc. destruct Hc as [_ <-]. reflexivity. }
    destruct Hd as [A2 E2]. rewrite find_r; auto; [apply (IHr A2); auto|]. unfold ids. rewrite E2. rewrite map_app. apply in_or_app. right. now left.
Qed.

(* ---- writing to a node ---- *)
Definition keeps (f : cell K -> cell K) := forall c, cid (f c) = cid c.
Definition on (i : Z) (f : cell K -> cell K) (c : cell K) : cell K := if cid c =? i then f c else c.
Lemma cells_upd i f t : cells (upd K i f t) = map (on i f) (cells t).
Proof. induction t as [|c lh rh l IHl r IHr]; [reflexivity|]. cbn. now rewrite map_app, IHl, IHr. Qed.
Lemma on_ids i f L : keeps f -> map cid (map (on i f) L) = map cid L.
Proof. intro H. rewrite map_map. apply map_ext. intro c. unfold on. destruct (_ =? _); auto. Qed.
Lemma ids_upd i f t : keeps f -> ids (upd K i f t) = ids t.
Proof. intro H. unfold ids. rewrite cells_upd. now apply on_ids. Qed.
Lemma levels_upd i f t : levels (upd K i f t) = levels t.
Proof. induction t as [|c lh rh l IHl r IHr]; cbn [upd levels]; [reflexivity|]. now rewrite IHl, IHr. Qed.
Lemma avl_upd i f t : avl t -> avl (upd K i f t).
Proof. induction t as [|c lh rh l IHl r IHr]; cbn; auto. rewrite !levels_upd. tauto. Qed.
Lemma on_id i f L : ~ In i (map cid L) -> map (on i f) L = L.
Proof.
  intro H. induction L as [|c L IH]; [reflexivity|]. cbn in *. unfold on at 1. destruct (Z.eqb_spec (cid c) i); [tauto|]. f_equal. tauto.
Qed.
Lemma on_split i f A c B : NoDup (map cid (A ++ c :: B)) -> cid c = i -> map (on i f) (A ++ c :: B) = A ++ f c :: B.
Proof.
  intros Hn Hc. rewrite map_app in *. cbn in *. pose proof (NoDup_remove_2 _ _ _ Hn) as H2. rewrite in_app_iff in H2.
  rewrite !on_id by (rewrite <- Hc; tauto). unfold on. rewrite Hc, Z.eqb_refl. reflexivity.
Qed.
Lemma find_upd i j f t : keeps f -> find K j (upd K i f t) = option_map (upd K i f) (find K j t).
Proof.
  intro Hk. induction t as [|c lh rh l IHl r IHr]; [reflexivity|]. cbn [upd find].
  assert (E1 : cid (if cid c =? i then f c else c) = cid c) by (destruct (_ =? _); auto). rewrite E1.
  destruct (cid c =? j); [reflexivity|]. rewrite IHl, IHr. destruct (find K j l); reflexivity.
Qed.

(* ---- attaching a leaf ---- *)
Lemma set_child_notin left i u t : ~ In i (ids t) -> set_child K left i u t = t.
Proof.
  induction t as [|c lh rh l IHl r IHr]; [reflexivity|]. rewrite ids_N, in_app_iff. cbn. intro H. destruct (Z.eqb_spec (cid c) i); [tauto|].
  rewrite IHl, IHr; tauto.
Qed.
Definition slot (left : bool) (i : Z) (t : tree K) : Prop :=
  exists c lh rh l r, find K i t = Some (N c lh rh l r) /\ (if left then l else r) = E.
Lemma slot_l left i c lh rh l r : NoDup (ids (N c lh rh l r)) -> In i (ids l) -> slot left i (N c lh rh l r) -> slot left i l.
Proof. intros Hn Hi (c2 & a & b & l2 & r2 & H & H2). rewrite find_l in H by assumption. unfold slot. eauto 10. Qed.
Lemma slot_r left i c lh rh l r : NoDup (ids (N c lh rh l r)) -> In i (ids r) -> slot left i (N c lh rh l r) -> slot left i r.
Proof. intros Hn Hi (c2 & a & b & l2 & r2 & H & H2). rewrite find_r in H by assumption. unfold slot. eauto 10. Qed.
Lemma slot_in left i t : slot left i t -> In i (ids t).
Proof. intros (c2 & a & b & l2 & r2 & H & H2). eapply find_in; exact H. Qed.
Lemma cells_attach left i u t : NoDup (ids t) -> slot left i t ->
  exists A c B, cid c = i /\ cells t = A ++ c :: B /\ cells (set_child K left i u t) = A ++ (if left then cells u ++ [c] else c :: cells u) ++ B.
Proof.
  induction t as [|c lh rh l IHl r IHr]; intros Hn Hs; [destruct Hs as (c2 & a & b & l2 & r2 & H & _); discriminate|].
  pose proof (nd_N _ _ _ _ _ Hn) as (Hl & Hr & H1 & H2 & H3). pose proof (slot_in _ _ _ Hs) as Hi. rewrite ids_N, in_app_iff in Hi. cbn in Hi.
  cbn [set_child]. destruct (Z.eqb_spec (cid c) i) as [Ec|Ec].
  - destruct Hs as (c2 & a & b & l2 & r2 & H & He). cbn [find] in H. rewrite Ec, Z.eqb_refl in H. injection H as <- <- <- <- <-.
    destruct left; subst.
    + exists [], c, (cells r). split; [reflexivity|]. split; [reflexivity|]. cbn. now rewrite <- app_assoc.
    + exists (cells l), c, []. split; [reflexivity|]. split; [reflexivity|]. cbn. now rewrite app_nil_r.
  - destruct Hi as [Hi|[Hi|Hi]]; [|contradiction|].
    + rewrite (set_child_notin left i u r) by auto. destruct (IHl Hl (slot_l _ _ _ _ _ _ _ Hn Hi Hs)) as (A & d & B & E1 & E2 & E3).
      exists A, d, (B ++ c :: cells r). split; [exact E1|]. cbn. rewrite E2, E3. split; now rewrite <- !app_assoc.
    + rewrite (set_child_notin left i u l) by (intro Q; exact (H3 i Q Hi)). destruct (IHr Hr (slot_r _ _ _ _ _ _ _ Hn Hi Hs)) as (A & d & B & E1 & E2 & E3).
      exists (cells l ++ c :: A), d, B. split; [exact E1|]. cbn. rewrite E2, E3. split; now rewrite <- !app_assoc.
Qed.
Lemma slot_upd left i j f t : keeps f -> slot left i t -> slot left i (upd K j f t).
Proof.
  intros Hk (c & a & b & l & r & H & He). unfold slot. rewrite find_upd, H by exact Hk. cbn. do 5 eexists. split; [reflexivity|].
  destruct left; subst; reflexivity.
Qed.
End F.
