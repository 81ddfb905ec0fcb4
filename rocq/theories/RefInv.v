(** The invariant of histories without QUICK_REASONER. *)
From Coq Require Import List ZArith Bool Lia Permutation.
From Verif Require Import RefModel RefSpec RefProof RefLink RefVals.
Import ListNotations.
Open Scope Z_scope.

Definition refsb (b : list (Z * list value)) : list (Z * value) := flat_map (fun e => map (pair (fst e)) (snd e)) b.
Definition refs (d : db) : list (Z * value) := refsb (bodies d).
Definition lks (R : list (Z * value)) : list (Z * Z) := flat_map (fun e => match snd e with VRec o => [(fst e, o)] | _ => [] end) R.
Record WF (d : db) : Prop := {
  w_0 : ~ In 0 (map fst (recs d));
  w_L : InvL (heads d) (cells d) (lks (refs d));
  w_V : InvV (strs d) (boxes d) (map snd (refs d)) }.

Lemma bodies_keys d : map fst (bodies d) = map fst (recs d).
Proof. unfold bodies. rewrite map_map. reflexivity. Qed.
Lemma get_bodies d o : get o (bodies d) = match get o (recs d) with Some x => Some (fields x) | None => None end.
Proof. unfold bodies. induction (recs d) as [|[j x] l IH]; cbn; [reflexivity|]. destruct (j =? o); [reflexivity|exact IH]. Qed.
Lemma get_field_bodies d r i : get_field d r i = match get r (bodies d) with Some fs => nth_error fs i | None => None end.
Proof. unfold get_field. rewrite get_bodies. destruct (get r (recs d)); reflexivity. Qed.
Lemma is_rec_bodies d o : is_rec d o <-> In o (map fst (bodies d)).
Proof. rewrite bodies_keys. split; [intros (x&H); eapply get_key; eauto|apply key_get]. Qed.

Lemma lks_in p o R : In (p, o) (lks R) <-> In (p, VRec o) R.
Proof.
  unfold lks. rewrite in_flat_map. split.
  - intros ([q v]&H&E). cbn [snd fst] in E. destruct v; cbn in E; try tauto. destruct E as [E|[]]. injection E as -> ->. exact H.
  - intros H. exists (p, VRec o). split; [exact H|left; reflexivity].
Qed.
Lemma lks_perm R R' : Permutation R R' -> Permutation (lks R) (lks R').
Proof. apply Permutation_flat_map. Qed.
Lemma lks_app a b : lks (a ++ b) = lks a ++ lks b.
Proof. apply flat_map_app. Qed.

Lemma refsb_in b p v : NoDup (map fst b) -> (In (p, v) (refsb b) <-> exists fs, get p b = Some fs /\ In v fs).
Proof.
  intros N. unfold refsb. rewrite in_flat_map. split.
  - intros ([q fs]&H&E). cbn [fst snd] in E. apply in_map_iff in E. destruct E as (w&E&I). injection E as -> ->. exists fs. split; [apply in_get; assumption|exact I].
  - intros (fs&H&I). exists (p, fs). split; [apply get_in, H|]. cbn [fst snd]. apply in_map, I.
Qed.
Lemma refers_refs d p v : NoDup (map fst (recs d)) -> (refers d p v <-> In (p, v) (refs d)).
Proof.
  intros N. unfold refs. rewrite refsb_in by (rewrite bodies_keys; exact N). unfold refers. split.
  - intros (i&H). rewrite get_field_bodies in H. destruct (get p (bodies d)) as [fs|]; [|discriminate]. exists fs. split; [reflexivity|eapply nth_error_In; eauto].
  - intros (fs&H&I). apply In_nth_error in I. destruct I as (i&I). exists i. rewrite get_field_bodies, H. exact I.
Qed.

Lemma set_nth_split : forall i v old fs, nth_error fs i = Some old -> exists a b, fs = a ++ old :: b /\ set_nth i v fs = a ++ v :: b.
Proof.
  induction i as [|i IH]; intros v old [|f fs]; cbn; try discriminate.
  - intros [= ->]. exists [], fs. auto.
  - intros H. destruct (IH v old fs H) as (a&b&->&->). exists (f :: a), b. auto.
Qed.
Lemma refs_put b r fs i v old : get r b = Some fs -> nth_error fs i = Some old ->
  exists R, Permutation (refsb b) ((r, old) :: R) /\ Permutation (refsb (put r (set_nth i v fs) b)) ((r, v) :: R).
Proof.
  intros G E. destruct (get_split _ _ _ G) as (l1&l2&->&N). rewrite put_split by exact N. destruct (set_nth_split i v old fs E) as (a&c&->&->).
  exists (refsb l1 ++ (map (pair r) a ++ map (pair r) c) ++ refsb l2). unfold refsb. rewrite !flat_map_app. cbn [flat_map fst snd]. rewrite !map_app. cbn [map].
  rewrite <- !app_assoc. cbn [app].
  split; rewrite (app_assoc _ _ (_ :: _)), <- Permutation_middle, <- app_assoc; reflexivity.
Qed.
Lemma store_ok d r i v fs : get r (bodies d) = Some fs -> exists d', store d r i v = Some d' /\ bodies d' = put r (set_nth i v fs) (bodies d) /\
  heads d' = heads d /\ cells d' = cells d /\ strs d' = strs d /\ boxes d' = boxes d.
Proof.
  intros G. rewrite get_bodies in G. unfold store. destruct (get r (recs d)) as [x|] eqn:E; [|discriminate]. injection G as <-.
  eexists. split; [reflexivity|]. unfold bodies, heads. cbn [set_recs recs cells strs boxes].
  split; [|split; [|repeat split]]; generalize E; clear E; generalize (recs d) as l; induction l as [|[j y] l IH]; cbn; try reflexivity; destruct (j =? r); cbn; try reflexivity; intros E; try (injection E as ->); try reflexivity; try (rewrite IH by exact E; reflexivity).
Qed.
Lemma nth_set_same : forall i v fs old, nth_error fs i = Some old -> nth_error (set_nth i v fs) i = Some v.
Proof. induction i as [|i IH]; intros v [|f fs] old; cbn; try discriminate; [reflexivity|apply IH]. Qed.
Lemma nth_set_other : forall i j v fs, i <> j -> nth_error (set_nth i v fs) j = nth_error fs j.
Proof. induction i as [|i IH]; intros [|j] v [|f fs] N; cbn; try reflexivity; try congruence. apply IH. congruence. Qed.

Lemma write_cells d a z d' : write d a z = Some d' -> map fst (cells d') = map fst (cells d).
Proof.
  unfold write. destruct a; [destruct (get o (recs d)); intros [= <-]; reflexivity|]. destruct (get c (cells d)) as [[p n]|]; [|discriminate]. intros [= <-]. cbn. apply put_keys.
Qed.
Lemma unlink_cells p : forall n d a b d', unlink n d a p = Some (b, d') -> incl (map fst (cells d')) (map fst (cells d)).
Proof.
  induction n as [|n IH]; intros d a b d'; cbn; [discriminate|]. destruct (read d a) as [c|]; [|discriminate]. destruct (c =? 0); [intros [= <- <-] x H; exact H|].
  destruct (get c (cells d)) as [[car cdr]|]; [|discriminate]. destruct (car =? p); [|apply IH].
  destruct (write d a cdr) as [d1|] eqn:W; [|discriminate]. intros [= <- <-] x H. cbn in H. apply del_in in H. rewrite (write_cells _ _ _ _ W) in H. exact H.
Qed.
Lemma fresh_unlink p n d a b d' c : unlink n d a p = Some (b, d') -> fresh_cell d c -> fresh_cell d' c.
Proof. intros U [NZ F]. split; [exact NZ|]. apply get_none. intros X. apply get_none in F. apply F. apply (unlink_cells _ _ _ _ _ _ U), X. Qed.

Lemma w_rk d : WF d -> NoDup (map fst (recs d)).
Proof. intros [_ L _]. rewrite <- heads_keys. apply (l_rk _ _ _ L). Qed.
Lemma exs_extends st e : NoDup (map fst st) -> (In e (exs st) <-> exists s x, get s st = Some x /\ extra x = e).
Proof.
  intros N. unfold exs. rewrite in_map_iff. split.
  - intros ([s x]&E&I). exists s, x. split; [apply in_get; assumption|exact E].
  - intros (s&x&G&E). exists (s, x). split; [exact E|apply get_in, G].
Qed.
Lemma in_use_vals d v : WF d -> (in_use d v <-> In v (map snd (refs d) ++ exs (strs d))).
Proof.
  intros W. unfold in_use. rewrite in_app_iff. rewrite exs_extends by apply (v_sk _ _ _ (w_V _ W)).
  split; (intros [H|H]; [left|right; exact H]).
  - destruct H as (p&H). apply refers_refs in H; [|apply w_rk, W]. apply (in_map snd) in H. exact H.
  - apply in_map_iff in H. destruct H as ([p w]&E&I). cbn in E. subst. exists p. apply refers_refs; [apply w_rk, W|exact I].
Qed.
Lemma usable_storable d v : WF d -> usable d v -> storable (strs d) (boxes d) (map snd (refs d)) v.
Proof.
  intros W [E N]. destruct v; cbn in *; auto; [destruct E as (x&E); eapply get_key; eauto|].
  split; [exact E|]. intros X. apply N. apply in_use_vals; [exact W|exact X].
Qed.
Lemma InvL_heads hs hs' cl L : hs = hs' -> InvL hs cl L -> InvL hs' cl L.
Proof. intros ->; auto. Qed.

(** The link of a field, kept by the record in the field *)
Definition field_link (r : Z) (v : value) : list (Z * Z) := match v with VRec o => [(r, o)] | _ => [] end.
Lemma drop_link d r old L : InvL (heads d) (cells d) (field_link r old ++ L) ->
  exists d', match old with VRec o => unlink (fuel d) d (Head o) r | _ => Some (true, d) end = Some (true, d') /\ InvL (heads d') (cells d') L /\ same d d' /\
    (forall c, fresh_cell d c -> fresh_cell d' c).
Proof.
  intros I. assert (S : same d d) by (split; [reflexivity|split; reflexivity]). destruct old; try (exists d; split; [reflexivity|]; split; [exact I|]; split; [exact S|auto]).
  destruct (unlink_ok d o r L I) as (d'&U&I'&S'). exists d'. split; [exact U|]. split; [exact I'|]. split; [exact S'|]. intros c. apply (fresh_unlink _ _ _ _ _ _ _ U).
Qed.
Lemma add_link d r v c L : InvL (heads d) (cells d) L -> exists_in d v -> fresh_cell d c ->
  exists d', match v with VRec o => match link d o c r with Some d => Some (0, d) | None => None end | _ => Some (0, d) end = Some (0, d') /\
    InvL (heads d') (cells d') (field_link r v ++ L) /\ same d d'.
Proof.
  intros I E F. assert (S : same d d) by (split; [reflexivity|split; reflexivity]). destruct v; try (exists d; split; [reflexivity|]; split; [exact I|exact S]).
  destruct (link_ok d o r c L I E F) as (d'&U&I'&S'). exists d'. rewrite U. auto.
Qed.
Lemma bodies_recs d d' : recs d' = recs d -> bodies d' = bodies d.
Proof. unfold bodies. intros ->. reflexivity. Qed.
Lemma heads_recs d d' : recs d' = recs d -> heads d' = heads d.
Proof. unfold heads. intros ->. reflexivity. Qed.

Lemma set_field_ok d r i v c old fs : WF d -> get r (bodies d) = Some fs -> nth_error fs i = Some old -> old <> v -> usable d v -> fresh_cell d c ->
  exists d', set_field false d r i v c = Some (0, d') /\ WF d' /\ bodies d' = put r (set_nth i v fs) (bodies d).
Proof.
  intros W G E NE U F. destruct (refs_put _ _ _ i v _ G E) as (R&R1&R2).
  pose proof (get_bodies d r) as GB. rewrite G in GB. unfold set_field. destruct (get r (recs d)) as [x|] eqn:GR; [|discriminate]. injection GB as GB. rewrite <- GB, E.
  destruct (value_eqb old v) eqn:EB; [apply value_eqb_spec in EB; congruence|].
  destruct (drop_link d r old (lks R)) as (d1&U1&I1&S1&F1).
  { apply (InvL_perm _ _ (lks (refs d))); [|apply (w_L _ W)]. rewrite (lks_perm _ _ R1). cbn [lks flat_map snd fst]. destruct old; reflexivity. }
  rewrite U1. destruct S1 as (B1&T1&X1).
  assert (V1 : InvV (strs d1) (boxes d1) (map snd (refs d))) by (rewrite T1, X1; apply (w_V _ W)).
  assert (ST : storable (strs d1) (boxes d1) (map snd (refs d)) v) by (rewrite T1, X1; apply usable_storable; assumption).
  destruct (incr_ok d1 v _ V1 ST) as (d2&U2&I2&K2&C2&_). rewrite U2.
  assert (P2 : Permutation (v :: map snd (refs d)) (old :: v :: map snd R)).
  { unfold refs. rewrite (Permutation_map snd R1). cbn. apply perm_swap. }
  destruct (free_ok d2 old (v :: map snd R) (InvV_perm _ _ _ _ P2 I2)) as (d3&U3&I3&K3&C3). rewrite U3.
  assert (B3 : bodies d3 = bodies d) by (rewrite (bodies_recs _ _ K3), (bodies_recs _ _ K2); exact B1).
  destruct (store_ok d3 r i v fs) as (d4&U4&B4&H4&C4&T4&X4); [rewrite B3; exact G|]. rewrite U4.
  assert (HL : heads d4 = heads d1) by (rewrite H4, (heads_recs _ _ K3), (heads_recs _ _ K2); reflexivity).
  assert (CL : cells d4 = cells d1) by (rewrite C4, C3, C2; reflexivity).
  assert (KK : map fst (bodies d4) = map fst (bodies d)) by (rewrite B4, put_keys, B3; reflexivity).
  assert (I4 : InvL (heads d4) (cells d4) (lks R)) by (rewrite HL, CL; exact I1).
  assert (V4 : InvV (strs d4) (boxes d4) (v :: map snd R)) by (rewrite T4, X4; exact I3).
  assert (EV : match v with VRec o => is_rec d4 o | _ => True end).
  { destruct v; auto. destruct U as [U _]. apply is_rec_bodies. rewrite KK. apply is_rec_bodies. exact U. }
  assert (F4 : fresh_cell d4 c) by (unfold fresh_cell; rewrite CL; apply F1, F).
  assert (A : exists d', match v with VRec o => match link d4 o c r with Some d => Some (0, d) | None => None end | _ => Some (0, d4) end = Some (0, d') /\
    InvL (heads d') (cells d') (field_link r v ++ lks R) /\ same d4 d').
  { assert (S : same d4 d4) by (split; [reflexivity|split; reflexivity]). destruct v; try (exists d4; split; [reflexivity|]; split; [exact I4|exact S]).
    destruct (link_ok d4 o r c _ I4 EV F4) as (d'&L&I'&S'). exists d'. rewrite L. auto. }
  destruct A as (d5&U5&I5&B5&T5&X5). exists d5. split; [exact U5|].
  assert (BB : bodies d5 = put r (set_nth i v fs) (bodies d)) by (rewrite B5, B4, B3; reflexivity). split; [|exact BB].
  constructor.
  - rewrite <- bodies_keys, BB, put_keys, bodies_keys. apply (w_0 _ W).
  - unfold refs. rewrite BB. apply (InvL_perm _ _ (field_link r v ++ lks R)); [|exact I5]. rewrite (lks_perm _ _ R2). destruct v; reflexivity.
  - unfold refs. rewrite BB, T5, X5. apply (InvV_perm _ _ (v :: map snd R)); [|exact V4]. rewrite (Permutation_map snd R2). reflexivity.
Qed.
