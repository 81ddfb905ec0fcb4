(** Histories of the area. *)
From Coq Require Import List ZArith Bool Lia.
From Verif Require Import Word64 AllocModel AllocProof VarModel VarSpec VarProof VarSteps VarAlloc VarFree.
Import ListNotations.
Open Scope Z_scope.

Section End.
Variables (baddr : Z -> Z) (k : nat) (can_alloc : how -> Prop) (can_free : bool -> Prop).
Notation vstep := (VarSpec.vstep baddr k can_alloc can_free).
Notation vsteps := (VarSpec.vsteps baddr k can_alloc can_free).
Notation vreach := (VarSpec.vreach baddr k can_alloc can_free).
Hypothesis Tame : tame can_alloc can_free.

Definition fine (X : Z -> Prop) : Prop := ((forall x, ~ X x) \/ (forall m, can_free m -> m = false)) /\ forall x, X x -> 0 < x.
Definition ok (s : vdb * held) : Prop :=
  exists X, VarAlloc.good k X (snd s) (fst s) /\ subs (areas (base (fst s)) k) <> [] /\ fine X.

Lemma create_ok d v : fresh_segment k d -> create_varlen baddr k d = Some v -> ok (v, []).
Proof.
  intros (S1 & S2 & S3 & S4) E. unfold create_varlen in E.
  destruct (init_subarea d k 8192) as [d'|] eqn:Ed; [|discriminate].
  assert (Sg : segok d k).
  { constructor; auto; rewrite S4; [intros s []|constructor|intros s []|constructor]. }
  destruct (init_subarea_seg k d 8192 d' Sg Ed ltac:(lia)) as (a & Ea & Sd & Em & Ao & As & _ & _).
  rewrite S4 in Ea. set (v0 := {| base := d'; bkt := fun _ => 0; dv := 0; dvs := 0 |}) in *.
  rewrite (init_freespace_eq baddr k v0 a [] true Ea) in E. cbn [negb andb] in E. injection E as <-.
  assert (H0 : inv k (fun x => x = - sa_aoffset a) [] v0 (fun _ => None) (fun _ => [])).
  { constructor; cbn; try discriminate; auto.
    - intros. constructor.
    - intros i o Hi. split; [intros []|intros (s & E & _); discriminate].
    - intros o n [].
    - constructor.
    - rewrite Ea. intros b [<-|[]]. now left. }
  destruct (lay_out_ok baddr k (fun _ => False) _ [] v0 _ _ a H0) as [G K].
  - intros o s. discriminate.
  - intros x Hx. now right.
  - reflexivity.
  - change (In a (subs (areas d' k))). rewrite Ea. now left.
  - intros o s c E. discriminate.
  - lia.
  - exists (fun _ => False). split; [exact G|]. split; [|split; [left; auto|intros x []]].
    change (subs (areas d' k) <> []). rewrite Ea. discriminate.
Qed.

Lemma unlink_areas v o s v' : unlink v o s = Some v' -> areas (base v') = areas (base v).
Proof. unfold unlink. destruct (bucket_index s <? 0); [discriminate|]. intro E. injection E as <-.
  destruct (bkt v (bucket_index s) =? o), (ld v (o + 8) =? 0); reflexivity. Qed.
Lemma push_areas' v o s i : areas (base (push_free baddr v o s i)) = areas (base v).
Proof. unfold push_free. destruct (bkt v i =? 0); reflexivity. Qed.
Lemma mark_areas v o : areas (base (set_mark v o)) = areas (base v) /\ areas (base (clear_mark v o)) = areas (base v).
Proof. unfold set_mark, clear_mark. destruct (is_used (ld v o)); split; reflexivity. Qed.
Definition fres_areas (v : vdb) (r : fres) : Prop := match r with FOk v' => areas (base v') = areas (base v) | FErr c => False | FUB => True end.
Lemma free_store_areas v o s : fres_areas v (free_store baddr v o s).
Proof.
  unfold free_store. destruct (dvs v <? s).
  - set (u := clear_mark (make_victim v o s) (o + s)).
    assert (Eu : areas (base u) = areas (base v)) by (unfold u; rewrite (proj2 (mark_areas _ _)); reflexivity).
    destruct (dv v =? 0); [exact Eu|]. destruct (bucket_index (dvs v) <? 0); [exact I|].
    unfold fres_areas. rewrite push_areas', (proj1 (mark_areas _ _)). exact Eu.
  - destruct (bucket_index s <? 0); [exact I|]. apply push_areas'.
Qed.
Lemma free_next_areas v o s : fres_areas v (free_next baddr v o s).
Proof.
  unfold free_next. destruct (is_free (ld v (o + s))).
  - destruct (unlink v (o + s) (pure_size (ld v (o + s)))) as [u|] eqn:Eu; [|exact I]. apply unlink_areas in Eu.
    pose proof (free_store_areas u o (s + pure_size (ld v (o + s)))) as R. unfold fres_areas in *. rewrite <- Eu. exact R.
  - destruct (is_special (ld v (o + s)) && (o + s =? dv v)); [reflexivity|].
    pose proof (free_store_areas (set_mark v (o + s)) o s) as R. unfold fres_areas in *. rewrite (proj1 (mark_areas _ _)) in R. exact R.
Qed.
Lemma free_areas v o v' : free_object baddr v o = FOk v' -> areas (base v') = areas (base v).
Proof.
  unfold free_object. destruct (is_free (ld v o)); [discriminate|]. destruct (used_size (ld v o) <? 32); [discriminate|].
  destruct (is_used_prevfree (ld v o)).
  - destruct (negb (is_free (ld v (o - pure_size (ld v (o - 8))))) || negb (pure_size (o - pure_size (ld v (o - 8))) =? pure_size (ld v (o - 8)))); [discriminate|].
    destruct (unlink v (o - pure_size (ld v (o - 8))) (pure_size (ld v (o - 8)))) as [u|] eqn:Eu; [|discriminate]. apply unlink_areas in Eu.
    intro E. pose proof (free_next_areas u (o - pure_size (ld v (o - 8))) (used_size (ld v o) + pure_size (ld v (o - 8)))) as R.
    rewrite E in R. cbn in R. congruence.
  - destruct (dv v + dvs v =? o); [intro E; injection E as <-; reflexivity|].
    intro E. pose proof (free_next_areas v o (used_size (ld v o))) as R. rewrite E in R. exact R.
Qed.
Lemma free_unmarked v o : is_used_prevfree (ld v o) = false -> free_object baddr v o <> FErr (-4).
Proof.
  intro Hm. unfold free_object. destruct (is_free (ld v o)); [discriminate|]. destruct (used_size (ld v o) <? 32); [discriminate|].
  rewrite Hm. destruct (dv v + dvs v =? o); [discriminate|]. intro E.
  pose proof (free_next_areas v o (used_size (ld v o))) as R. rewrite E in R. exact R.
Qed.

Lemma alloc_res L v n : ok (v, L) -> 0 <= n < 2 ^ 36 ->
  exists X, fine X /\ gints_res k X L v n (alloc_gints baddr k 65 v n) /\ subs (areas (base v) k) <> [].
Proof.
  intros (X & G & Ns & HX) Hn. exists X. split; [exact HX|]. split; [|exact Ns]. cbn in G, Ns.
  apply alloc_gints_ok; auto; [|lia]. destruct (subs (areas (base v) k)); [contradiction|cbn [length]; lia].
Qed.
Lemma nonempty_sub (l l' : list subarea) : l <> [] -> (forall a, In a l -> In a l') -> l' <> [].
Proof. intros N H ->. destruct l as [|a l]; [contradiction|]. exact (H a (or_introl eq_refl)). Qed.

Lemma free_res L1 L2 v o n : ok (v, L1 ++ (o, n) :: L2) -> can_free (is_used_prevfree (ld v o)) ->
  free_object baddr v o = FErr (-4) \/
  exists X v', free_object baddr v o = FOk v' /\ VarAlloc.good k X (L1 ++ L2) v' /\ keeps (L1 ++ L2) v v' /\ fine X.
Proof.
  intros (X & G & Ns & HX) Hc. cbn in G.
  destruct (free_object_ok baddr k X L1 L2 v o n G) as [R|(v' & R & G' & K)].
  - intro Hm. destruct HX as [[HX|HX] _]; [apply HX|]. specialize (HX _ Hc). congruence.
  - now left.
  - right. exists X, v'. auto.
Qed.

Lemma step_ok s t : vstep s t -> ok s -> ok t.
Proof.
  intros Hs Ho. inversion Hs as [v L n h o v' Hn Hc E|v L n v' Hn E|v L1 L2 o n v' Hc E|v L o n j x Hi Hj|v L d E1 E2 E3 E4 E5]; subst s t.
  - destruct (alloc_res L v n Ho Hn) as (X & HX & R & Ns). rewrite E in R. cbn in R. destruct R as (_ & Hsub & G).
    exists (stale X h o n). split; [exact G|]. split; [eapply nonempty_sub; eassumption|].
    destruct HX as [HX HP]. split; [|intros x [Hx|[_ ->]]; [auto|]].
    2: { destruct G as (B & F & H & _). destruct (i_held _ _ _ _ _ _ H o n (or_introl eq_refl)) as (s & fl & Eo).
         destruct (pos_bound k H _ _ _ Eo). unfold room. lia. }
    destruct HX as [HX|HX]; [|now right]. destruct Tame as [T|T]; [|now right]. left. intros x [Hx|[Hx _]]; [exact (HX _ Hx)|exact (T _ Hc Hx)].
  - destruct (alloc_res L v n Ho Hn) as (X & HX & R & Ns). rewrite E in R. cbn in R. destruct R as (G & _ & Hsub).
    exists X. split; [exact G|]. split; [eapply nonempty_sub; eassumption|exact HX].
  - destruct (free_res L1 L2 v o n Ho Hc) as [R|(X & v2 & R & G & _ & HX)]; [congruence|]. rewrite E in R. injection R as <-.
    exists X. split; [exact G|]. split; [|exact HX]. cbn. rewrite (free_areas _ _ _ E). destruct Ho as (_ & _ & Ns & _). exact Ns.
  - destruct Ho as (X & (B & F & H & NH) & Ns & HX). exists X. split; [|split; [exact Ns|exact HX]].
    exists B, F. split; [|exact NH]. eapply inv_write; eassumption.
  - destruct Ho as (X & (B & F & H & NH) & Ns & HX). exists X. cbn in *. split; [|split; [rewrite E1; exact Ns|exact HX]].
    exists B, F. split; [|exact NH]. destruct (i_seg _ _ _ _ _ _ H) as [S1 S2 S3 S4 S5 S6 S7]. apply inv_base with (X := X); [exact H| |auto| | |].
    + constructor; rewrite ?E1, ?E2; auto; try lia.
      * intros s Hin. destruct (S4 s Hin) as (Q1 & Q2 & Q3 & Q4 & Q5 & Q6 & Q7). repeat split; auto; lia.
      * intros s Hin. destruct (S6 s Hin). split; [assumption|lia].
    + intros a Ha. rewrite E1. exact Ha.
    + intros a Ha. rewrite E1 in Ha. now left.
    + intros o s c p Eo Hp. destruct (i_pos _ _ _ _ _ _ H _ _ _ Eo) as (_ & _ & _ & a & Ia & A1 & A2 & _). rewrite <- E1 in Ia. apply (E5 a p Ia). lia.
Qed.
Lemma steps_ok s t : vsteps s t -> ok s -> ok t.
Proof. induction 1; auto. intro H1. eapply step_ok; eauto. Qed.
Lemma reach_ok s : vreach s -> ok s.
Proof. intros (d & v & Hd & E & H). eapply steps_ok; [exact H|]. eapply create_ok; eassumption. Qed.

(* ---- reading the invariant ---- *)
Lemma goodx_held X L v : VarAlloc.goodx k X L v -> ForallOrdPairs apartz L /\
  forall o n, In (o, n) L -> 0 < o /\ o mod 8 = 0 /\ pure_size (ld v o) = 8 * n /\ exists s, In s (subs (areas (base v) k)) /\ inside (o, n) s.
Proof.
  intros (B & F & H & NH). split.
  - pose proof (i_lnd _ _ _ _ _ _ H) as Hn.
    assert (Hh : forall o n, In (o, n) L -> exists fl, B o = Some (room n, KUsed n fl)).
    { intros o n Hin. destruct (i_held _ _ _ _ _ _ H _ _ Hin) as (s & fl & E). exists fl. destruct (i_head _ _ _ _ _ _ H _ _ _ E) as (_ & <- & _). exact E. }
    clear NH. assert (Hd := i_dis _ _ _ _ _ _ H). clear H. induction L as [|[o n] L IH]; [constructor|].
    cbn in Hn. apply NoDup_cons_iff in Hn. destruct Hn as [Hn1 Hn2]. constructor.
    + apply Forall_forall. intros [o' n'] Hin. unfold apartz. cbn [fst snd].
      destruct (Hh o n) as (fl & E); [now left|]. destruct (Hh o' n') as (fl' & E'); [now right|].
      apply (Hd _ _ _ _ _ _ E E'). intros ->. apply Hn1. apply in_map_iff. exists (o', n'). auto.
    + apply IH; auto. intros o' n' Hin. apply Hh. now right.
  - intros o n Hin. destruct (i_held _ _ _ _ _ _ H _ _ Hin) as (s & fl & E). destruct (i_head _ _ _ _ _ _ H _ _ _ E) as (Hn & Hs & Hm). subst s.
    destruct (i_pos _ _ _ _ _ _ H _ _ _ E) as (_ & _ & P3 & a & Ia & A1 & A2 & _).
    split; [exact (proj1 (pos_bound k H _ _ _ E))|]. split; [exact P3|]. split.
    + unfold ld. rewrite Hm. apply pure_size_c; [apply mod8_mul|destruct fl; lia].
    + exists a. split; [exact Ia|]. split; assumption.
Qed.

Lemma ok_held L v : ok (v, L) -> ForallOrdPairs apartz L /\
  forall o n, In (o, n) L -> 0 < o /\ o mod 8 = 0 /\ pure_size (ld v o) = 8 * n /\ exists s, In s (subs (areas (base v) k)) /\ inside (o, n) s.
Proof. intros (X & G & _). exact (goodx_held _ _ _ G). Qed.

Lemma end_held v L : vreach (v, L) -> ForallOrdPairs apartz L /\
  forall o n, In (o, n) L -> 0 < o /\ o mod 8 = 0 /\ pure_size (ld v o) = 8 * n /\ exists s, In s (subs (areas (base v) k)) /\ inside (o, n) s.
Proof. intro H. apply ok_held. now apply reach_ok. Qed.
Lemma end_alloc v L n : vreach (v, L) -> 0 <= n < 2 ^ 36 ->
  match alloc_gints baddr k 65 v n with
  | VOk h o v' => 0 < o /\ o mod 8 = 0 /\ Forall (apartz (o, n)) L /\ (exists s, In s (subs (areas (base v') k)) /\ inside (o, n) s) /\
      (forall o1 n1 j, In (o1, n1) L -> 1 <= j < n1 -> ld v' (o1 + 8 * j) = ld v (o1 + 8 * j))
  | VFail v' => forall o1 n1 j, In (o1, n1) L -> 1 <= j < n1 -> ld v' (o1 + 8 * j) = ld v (o1 + 8 * j)
  | VFuel | VUB => False
  end.
Proof.
  intros H Hn. apply reach_ok in H. destruct (alloc_res L v n H Hn) as (X & HX & R & Ns).
  destruct (alloc_gints baddr k 65 v n) as [h o v'|v'| |]; cbn in R; try contradiction.
  - destruct R as (K & Hsub & G). pose proof (goodx_held _ _ _ G) as Ho.
    destruct Ho as [Ho1 Ho2]. destruct (Ho2 o n (or_introl eq_refl)) as (P1 & P2 & _ & P3).
    split; [exact P1|]. split; [exact P2|]. split; [inversion Ho1; assumption|]. split; [exact P3|].
    intros o1 n1 j Hin Hj. exact (K _ _ _ Hin Hj).
  - destruct R as (_ & K & _). intros o1 n1 j Hin Hj. exact (K _ _ _ Hin Hj).
Qed.
Lemma end_free v L1 L2 o n : vreach (v, L1 ++ (o, n) :: L2) -> can_free (is_used_prevfree (ld v o)) ->
  (free_object baddr v o = FErr (-4) /\ is_used_prevfree (ld v o) = true) \/
  exists v', free_object baddr v o = FOk v' /\
    forall o1 n1 j, In (o1, n1) (L1 ++ L2) -> 1 <= j < n1 -> ld v' (o1 + 8 * j) = ld v (o1 + 8 * j).
Proof.
  intros H Hc. apply reach_ok in H. destruct (free_res L1 L2 v o n H Hc) as [R|(X & v' & R & _ & K & _)].
  - left. split; [exact R|]. destruct (is_used_prevfree (ld v o)) eqn:E; [reflexivity|]. now destruct (free_unmarked v o E).
  - right. exists v'. split; [exact R|]. intros o1 n1 j Hin Hj. exact (K _ _ _ Hin Hj).
Qed.
End End.

(* ---- running a history ---- *)
Inductive op := OAlloc (n : Z) | OFree (o n : Z) | OWrite (o n j x : Z).
Section Run.
Variables (baddr : Z -> Z) (k : nat) (ba : how -> bool) (bf : bool -> bool).
Fixpoint take (o n : Z) (L : held) : option (held * held) :=
  match L with
  | [] => None
  | (o1, n1) :: L => if (o1 =? o) && (n1 =? n) then Some ([], L)
                     else match take o n L with Some (a, b) => Some ((o1, n1) :: a, b) | None => None end
  end.
Definition run1 (s : vdb * held) (x : op) : option (vdb * held) :=
  let (v, L) := s in
  match x with
  | OAlloc n => if (0 <=? n) && (n <? 2 ^ 36) then
      match alloc_gints baddr k 65 v n with
      | VOk h o v' => if ba h then Some (v', (o, n) :: L) else None
      | _ => None
      end else None
  | OFree o n => match take o n L with
      | Some (a, b) => if bf (is_used_prevfree (ld v o)) then
          match free_object baddr v o with FOk v' => Some (v', a ++ b) | _ => None end else None
      | None => None
      end
  | OWrite o n j x => match take o n L with
      | Some _ => if (1 <=? j) && (j <? n) then Some (st v (o + 8 * j) x, L) else None
      | None => None
      end
  end.
Fixpoint run (s : vdb * held) (l : list op) : option (vdb * held) :=
  match l with [] => Some s | x :: l => match run1 s x with Some s => run s l | None => None end end.
Lemma take_ok o n L a b : take o n L = Some (a, b) -> L = a ++ (o, n) :: b.
Proof.
  revert a b. induction L as [|[o1 n1] L IH]; cbn; intros a b E; [discriminate|].
  destruct ((o1 =? o) && (n1 =? n)) eqn:Eq.
  - injection E as <- <-. apply andb_prop in Eq. destruct Eq as [E1 E2]. apply Z.eqb_eq in E1, E2. now subst.
  - destruct (take o n L) as [[a' b']|]; [|discriminate]. injection E as <- <-. cbn. now rewrite (IH _ _ eq_refl).
Qed.
Variables (can_alloc : how -> Prop) (can_free : bool -> Prop).
Hypothesis HA : forall h, ba h = true -> can_alloc h.
Hypothesis HF : forall m, bf m = true -> can_free m.
Lemma run1_ok s x t : run1 s x = Some t -> VarSpec.vstep baddr k can_alloc can_free s t.
Proof.
  destruct s as [v L]. destruct x as [n|o n|o n j x]; unfold run1.
  - destruct ((0 <=? n) && (n <? 2 ^ 36)) eqn:E; [|discriminate]. apply andb_prop in E. destruct E as [E1 E2]. apply Z.leb_le in E1. apply Z.ltb_lt in E2.
    destruct (alloc_gints baddr k 65 v n) as [h o v'| | |] eqn:Ea; try discriminate. destruct (ba h) eqn:Eb; [|discriminate].
    intro Eq. injection Eq as <-. eapply vs_alloc; eauto.
  - destruct (take o n L) as [[a b]|] eqn:Et; [|discriminate]. apply take_ok in Et. subst L. destruct (bf _) eqn:Eb; [|discriminate].
    destruct (free_object baddr v o) as [v'| |] eqn:Ef; try discriminate. intro Eq. injection Eq as <-. apply vs_free; auto.
  - destruct (take o n L) as [[a b]|] eqn:Et; [|discriminate]. apply take_ok in Et.
    destruct ((1 <=? j) && (j <? n)) eqn:E; [|discriminate]. apply andb_prop in E. destruct E as [E1 E2]. apply Z.leb_le in E1. apply Z.ltb_lt in E2.
    intro Eq. injection Eq as <-. apply vs_write with (n := n); [|lia]. rewrite Et. apply in_or_app. right. now left.
Qed.
Lemma run_ok l : forall s t, run s l = Some t -> VarSpec.vsteps baddr k can_alloc can_free s t.
Proof.
  assert (App : forall s u t, vstep baddr k can_alloc can_free s u -> vsteps baddr k can_alloc can_free u t -> vsteps baddr k can_alloc can_free s t).
  { intros s u t H1 H2. induction H2; [eapply vs_step; [apply vs_refl|exact H1]|]. eapply vs_step; [now apply IHvsteps|assumption]. }
  induction l as [|x l IH]; cbn; intros s t E; [injection E as <-; apply vs_refl|].
  destruct (run1 s x) as [u|] eqn:E1; [|discriminate]. eapply App; [eapply run1_ok; exact E1|now apply IH].
Qed.
End Run.
