(** The choice of the index, the bounds, and the answer to a query. *)
From Coq Require Import List ZArith Bool Lia Permutation.
From Verif Require Import TtModel TtSpec TtProof TtSeek TtAdd QyModel QySpec QyTree QyFetch.
Import ListNotations.
Open Scope Z_scope.

Section P.
Context {K : Type}.
Variable cmp : K -> K -> comparison.
Variable null : K.
Variable same : K -> K -> bool.
Hypothesis TO : total_order cmp.
Notation fld := (fld K null).
Implicit Types (d : db K) (f : list K) (h : header K) (a : arg K) (args : list (arg K)) (t : list (option K)).

Definition belongs h f : bool := Nat.ltb (hcol K h) (length f) && matches K cmp h f.
Definition fixes t (c : nat) : Prop := exists e, nth_error t c = Some (Some e).
Definition tmpl_ok (c : nat) t : Prop := trim K t = t /\ (length t <= S max_field)%nat /\ (exists j, fixes t j) /\ ~ fixes t c.
Record hgood d h : Prop := {
  g_inv : inv cmp (fld d (hcol K h)) (hix K h);
  g_rows : Permutation (rows (tr (hix K h))) (map fst (filter (fun p => belongs h (snd p)) (recs K d)));
  g_col : (hcol K h <= max_field)%nat;
  g_id : 0 < hid K h < 2 ^ 31;
  g_tmpl : forall t, htmpl K h = Some t -> tmpl_ok (hcol K h) t;
  g_tab : forall c, In (hid K h) (table K d c) <-> c = hcol K h;
  g_ttab : forall c, In (hid K h) (ttable K d c) <-> exists t, htmpl K h = Some t /\ fixes t c }.
Record dgood d : Prop := {
  d_nd : NoDup (map fst (recs K d));
  d_0 : ~ In 0 (map fst (recs K d));
  d_ids : NoDup (map (hid K) (hdrs K d));
  d_hdr : forall h, In h (hdrs K d) -> hgood d h;
  d_tab : forall c, NoDup (table K d c);
  d_ttab : forall c, NoDup (ttable K d c);
  d_in : forall c i, In i (table K d c) \/ In i (ttable K d c) -> In i (map (hid K) (hdrs K d)) }.

(* ---- finding things ---- *)
Lemma fields_in (rs : list (Z * list K)) r f : NoDup (map fst rs) -> In (r, f) rs -> fields K rs r = f.
Proof.
  induction rs as [|[s g] rs IH]; intros Hn Hi; [contradiction|]. cbn [map fst] in Hn. inversion_clear Hn as [|? ? Hx Hn']. unfold fields. cbn [List.find fst].
  destruct (Z.eqb_spec s r) as [->|Hne].
  - destruct Hi as [Q|Q]; [injection Q as ->; reflexivity|]. exfalso. apply Hx. change r with (fst (r, f)). now apply in_map.
  - destruct Hi as [Q|Q]; [injection Q as -> ->; contradiction|]. exact (IH Hn' Q).
Qed.
Lemma hget_in hs h : NoDup (map (hid K) hs) -> In h hs -> hget K (hid K h) hs = Some h.
Proof.
  induction hs as [|g hs IH]; intros Hn Hi; [contradiction|]. cbn [map] in Hn. inversion_clear Hn as [|? ? Hx Hn']. unfold hget. cbn [List.find].
  destruct (Z.eqb_spec (hid K g) (hid K h)) as [e|Hne].
  - destruct Hi as [->|Q]; [reflexivity|]. exfalso. apply Hx. rewrite e. now apply in_map.
  - destruct Hi as [->|Q]; [contradiction|]. exact (IH Hn' Q).
Qed.
Lemma hget_some hs i h : hget K i hs = Some h -> In h hs /\ hid K h = i.
Proof. unfold hget. intro H. apply List.find_some in H. destruct H as [H1 H2]. apply Z.eqb_eq in H2. auto. Qed.
Lemma hget_ex hs i : NoDup (map (hid K) hs) -> In i (map (hid K) hs) -> exists h, hget K i hs = Some h /\ In h hs /\ hid K h = i.
Proof. intros Hn Hi. apply in_map_iff in Hi. destruct Hi as (h & <- & Hi). exists h. split; [now apply hget_in|auto]. Qed.
Lemma to_int_id i : 0 < i < 2 ^ 31 -> to_int i = i.
Proof. intro H. unfold to_int. rewrite Z.mod_small; lia. Qed.

(* ---- templates ---- *)
Lemma trim_cons e t : trim K (e :: t) = e :: t -> trim K t = t /\ (e = None -> t <> []).
Proof.
  cbn [trim]. intro H. destruct e as [e|].
  - injection H as H. split; [exact H|discriminate].
  - destruct (trim K t) as [|u v] eqn:E1; [discriminate|]. injection H as H. split; [exact H|]. intros _ Q. rewrite Q in H. discriminate.
Qed.
Lemma trim_fixes t : trim K t = t -> t <> [] -> exists j, fixes t j.
Proof.
  induction t as [|e t IH]; intros H Hne; [contradiction|]. apply trim_cons in H. destruct H as [H1 H2]. destruct e as [e|].
  - exists 0%nat, e. reflexivity.
  - destruct (IH H1 (H2 eq_refl)) as (j & v & Hj). exists (S j), v. exact Hj.
Qed.
Lemma match_get t : forall f, match_tmpl K cmp t f = true -> forall j e, nth_error t j = Some (Some e) -> exists v, nth_error f j = Some v /\ cmp e v = Eq.
Proof.
  induction t as [|e t IH]; intros f H j e' Hj; [destruct j; discriminate|]. cbn [match_tmpl] in H. destruct f as [|v f]; [destruct e; discriminate|].
  destruct j as [|j].
  - cbn in Hj. injection Hj as ->. apply andb_true_iff in H. destruct H as [H _]. exists v. split; [reflexivity|]. destruct (cmp e' v); try discriminate; reflexivity.
  - cbn [nth_error] in *. apply (IH f); [|exact Hj]. destruct e; [apply andb_true_iff in H; apply H|exact H].
Qed.
Lemma match_put t : trim K t = t -> forall f, (forall j e, nth_error t j = Some (Some e) -> exists v, nth_error f j = Some v /\ cmp e v = Eq) -> match_tmpl K cmp t f = true.
Proof.
  induction t as [|e t IH]; intros Ht f H; [reflexivity|]. destruct f as [|v f].
  - exfalso. destruct (trim_fixes _ Ht ltac:(discriminate)) as (j & w & Hj). destruct (H j w Hj) as (u & Hu & _). destruct j; discriminate.
  - apply trim_cons in Ht. destruct Ht as [Ht _]. assert (Hr : match_tmpl K cmp t f = true) by (apply IH; [exact Ht|intros j e' Hj; apply (H (S j) e' Hj)]).
    cbn [match_tmpl]. destruct e as [e|]; [|exact Hr]. destruct (H 0%nat e eq_refl) as (u & Hu & Hc). cbn in Hu. injection Hu as <-. rewrite Hc, Hr. reflexivity.
Qed.
Lemma match_len t : forall f, match_tmpl K cmp t f = true -> (length t <= length f)%nat.
Proof.
  induction t as [|e t IH]; intros f H; [cbn; lia|]. cbn [match_tmpl] in H. destruct f as [|v f]; [destruct e; discriminate|]. cbn [length].
  assert (match_tmpl K cmp t f = true) by (destruct e; [apply andb_true_iff in H; apply H|exact H]). specialize (IH f H0). lia.
Qed.

(* ---- conditions ---- *)
Lemma holds_ok c o : holds c o = true <-> match c with CEq => o = Eq | CNe => o <> Eq | CLt => o = Lt | CGt => o = Gt | CLe => o <> Gt | CGe => o <> Lt end.
Proof. destruct c, o; cbn; split; intro H; try reflexivity; try discriminate; try congruence. Qed.
Lemma check_ok d r f args : NoDup (map fst (recs K d)) -> In (r, f) (recs K d) -> check_args K cmp null d r args = true <-> Forall (meets cmp f) args.
Proof.
  intros Hn Hi. unfold check_args. unfold QyModel.fld. rewrite (fields_in _ _ _ Hn Hi). rewrite forallb_forall, Forall_forall. split; intros H a Ha; specialize (H a Ha).
  - apply andb_true_iff in H. destruct H as [H1 H2]. apply Nat.ltb_lt in H1. apply holds_ok in H2. exists (nth (acol K a) f null). split; [apply nth_error_nth'; exact H1|exact H2].
  - destruct H as (v & H1 & H2). apply andb_true_iff. split; [apply Nat.ltb_lt; apply nth_error_Some; congruence|]. apply holds_ok. rewrite (nth_error_nth _ _ null H1). exact H2.
Qed.
Lemma rec_args_in m : forall i a, In a (rec_args K i m) <-> exists j v, nth_error m j = Some (Some v) /\ a = {| acol := i + j; acond := CEq; aval := v |}.
Proof.
  induction m as [|e m IH]; intros i a; cbn [rec_args].
  - split; [intros []|]. intros (j & v & H & _). destruct j; discriminate.
  - assert (Hstep : In a (rec_args K (S i) m) <-> exists j v, nth_error m j = Some (Some v) /\ a = {| acol := i + S j; acond := CEq; aval := v |}).
    { rewrite IH. split; intros (j & v & H1 & H2); exists j, v; (split; [exact H1|]); rewrite H2; f_equal; lia. }
    destruct e as [e|]; cbn [In]; rewrite Hstep.
    + split.
      * intros [<-|(j & v & H1 & H2)]; [exists 0%nat, e; rewrite Nat.add_0_r; auto|exists (S j), v; auto].
      * intros ([|j] & v & H1 & H2); [left; cbn in H1; injection H1 as <-; rewrite Nat.add_0_r in H2; auto|right; eauto].
    + split.
      * intros (j & v & H1 & H2). exists (S j), v. auto.
      * intros ([|j] & v & H1 & H2); [discriminate|eauto].
Qed.
Lemma wanted_args m args f : Forall (meets cmp f) (all_args K m args) <-> wanted cmp m args f.
Proof.
  unfold all_args, wanted. rewrite Forall_app. apply and_iff_compat_l. destruct m as [m|]; [|split; [intros _; exact I|intros _; constructor]].
  rewrite Forall_forall. unfold agrees. split.
  - intros H i v Hi. destruct (H {| acol := i; acond := CEq; aval := v |}) as (w & H1 & H2); [apply rec_args_in; exists i, v; auto|]. exists w. auto.
  - intros H a Ha. apply rec_args_in in Ha. destruct Ha as (j & v & H1 & ->). destruct (H j v H1) as (w & H2 & H3). exists w. auto.
Qed.
Lemma gap_args m args : empty_gap cmp (all_args K m args) -> empty_gap cmp args.
Proof.
  intros (a & b & Ha & Hb & H1 & H2 & H3 & H4). unfold all_args in *. exists a, b. rewrite in_app_iff in Ha, Hb.
  assert (Hno : forall c, In c match m with Some m => rec_args K 0 m | None => [] end -> acond K c = CEq).
  { intros c Hc. destruct m as [m|]; [|contradiction]. apply rec_args_in in Hc. destruct Hc as (j & v & _ & ->). reflexivity. }
  destruct Ha as [Ha|Ha]; [|apply Hno in Ha; congruence]. destruct Hb as [Hb|Hb]; [|apply Hno in Hb; congruence]. auto 10.
Qed.

(* ---- bounds ---- *)
Section R.
Variable key : Z -> K.
Notation ins := (in_start cmp key). Notation ine := (in_end cmp key).
Definition inr (g : range K) (e : Z) : Prop := ins (sb K g) (sincl K g) e /\ ine (eb K g) (eincl K g) e.
Ltac ord := repeat match goal with H : _ = Lt |- _ => idtac end.
Lemma lt_ge b v e : cmp b v = Lt -> cmp (key e) v <> Lt -> cmp (key e) b = Gt.
Proof. intros H1 H2. apply (gt_lt cmp TO). apply lt_le_trans with v; [exact TO|exact H1|]. intro Q. apply H2. now apply (gt_lt cmp TO). Qed.
Lemma start_ge g v e : inr (start_if K cmp is_lt v true g) e <-> inr g e /\ cmp (key e) v <> Lt.
Proof.
  unfold start_if, inr. destruct (sb K g) as [b|] eqn:Eb.
  - destruct (is_lt (cmp b v)) eqn:El; cbn [sb sincl eb eincl].
    + apply lt_true in El. cbn [in_start]. split.
      * intros [H1 H2]. split; [split; [|exact H2]|exact H1]. pose proof (lt_ge b v e El H1) as G. destruct (sincl K g); congruence.
      * intros [[_ H2] H1]. auto.
    + rewrite Eb. assert (Hbv : cmp b v <> Lt) by (intro Q; rewrite Q in El; discriminate). split; [|tauto]. intros [H1 H2]. split; [auto|]. intro Q. apply Hbv.
      assert (cmp b (key e) <> Gt).
      { intro G. apply (gt_lt cmp TO) in G. cbn [in_start] in H1. destruct (sincl K g); congruence. }
      eapply le_lt_trans; eauto.
  - cbn [sb sincl eb eincl in_start]. tauto.
Qed.
Lemma start_gt g v e : inr (start_if K cmp (fun o => negb (is_gt o)) v false g) e <-> inr g e /\ cmp (key e) v = Gt.
Proof.
  unfold start_if, inr. destruct (sb K g) as [b|] eqn:Eb.
  - destruct (is_gt (cmp b v)) eqn:El; cbn [negb sb sincl eb eincl].
    + apply gt_true in El. rewrite Eb. split; [|tauto]. intros [H1 H2]. split; [auto|]. apply (gt_lt cmp TO). apply (gt_lt cmp TO) in El. eapply lt_le_trans; [exact TO|exact El|].
      intro G. apply (gt_lt cmp TO) in G. cbn [in_start] in H1. destruct (sincl K g); congruence.
    + assert (Hbv : cmp b v <> Gt) by (intro Q; rewrite Q in El; discriminate). cbn [in_start]. split.
      * intros [H1 H2]. split; [split; [|exact H2]|exact H1].
        assert (G : cmp (key e) b = Gt) by (apply (gt_lt cmp TO); eapply le_lt_trans; [exact TO|exact Hbv|apply (gt_lt cmp TO); exact H1]). destruct (sincl K g); congruence.
      * intros [[_ H2] H1]. auto.
  - cbn [sb sincl eb eincl in_start negb]. tauto.
Qed.
Lemma end_le g v e : inr (end_if K cmp is_gt v true g) e <-> inr g e /\ cmp (key e) v <> Gt.
Proof.
  unfold end_if, inr. destruct (eb K g) as [b|] eqn:Eb.
  - destruct (is_gt (cmp b v)) eqn:El; cbn [sb sincl eb eincl].
    + apply gt_true in El. cbn [in_end]. split.
      * intros [H1 H2]. split; [split; [exact H1|]|exact H2]. assert (G : cmp (key e) b = Lt) by (eapply le_lt_trans; [exact TO|exact H2|apply (gt_lt cmp TO); exact El]). destruct (eincl K g); congruence.
      * intros [[H1 _] H2]. auto.
    + rewrite Eb. assert (Hbv : cmp b v <> Gt) by (intro Q; rewrite Q in El; discriminate). split; [|tauto]. intros [H1 H2]. split; [auto|].
      assert (cmp (key e) b <> Gt) by (cbn [in_end] in H2; destruct (eincl K g); congruence). eapply c_trans; eauto.
  - cbn [sb sincl eb eincl in_end]. tauto.
Qed.
Lemma end_lt g v e : inr (end_if K cmp (fun o => negb (is_lt o)) v false g) e <-> inr g e /\ cmp (key e) v = Lt.
Proof.
  unfold end_if, inr. destruct (eb K g) as [b|] eqn:Eb.
  - destruct (is_lt (cmp b v)) eqn:El; cbn [negb sb sincl eb eincl].
    + apply lt_true in El. rewrite Eb. split; [|tauto]. intros [H1 H2]. split; [auto|].
      assert (cmp (key e) b <> Gt) by (cbn [in_end] in H2; destruct (eincl K g); congruence). eapply le_lt_trans; eauto.
    + assert (Hbv : cmp b v <> Lt) by (intro Q; rewrite Q in El; discriminate). cbn [in_end]. split.
      * intros [H1 H2]. split; [split; [exact H1|]|exact H2]. assert (Hvb : cmp v b <> Gt) by (intro Q; apply Hbv; now apply (gt_lt cmp TO)).
        assert (G : cmp (key e) b = Lt) by (eapply lt_le_trans; eauto). destruct (eincl K g); congruence.
      * intros [[H1 _] H2]. auto.
  - cbn [sb sincl eb eincl in_end negb]. tauto.
Qed.
Definition met a (e : Z) : Prop := acond K a = CNe \/ holds (acond K a) (cmp (key e) (aval K a)) = true.
Lemma narrow_ok g a e : inr (narrow K cmp g a) e <-> inr g e /\ met a e.
Proof.
  unfold narrow, met. destruct (acond K a) eqn:Ec; rewrite holds_ok.
  - rewrite end_le, start_ge. split.
    + intros [[H1 H2] H3]. split; [exact H1|]. right. destruct (cmp (key e) (aval K a)); congruence.
    + intros [H1 [H2|H2]]; [discriminate|]. rewrite H2. split; [split; [exact H1|]|]; discriminate.
  - unfold inr. cbn. tauto.
  - rewrite end_lt. split; [intros [H1 H2]; auto|]. intros [H1 [H2|H2]]; [discriminate|auto].
  - rewrite start_gt. split; [intros [H1 H2]; auto|]. intros [H1 [H2|H2]]; [discriminate|auto].
  - rewrite end_le. split; [intros [H1 H2]; auto|]. intros [H1 [H2|H2]]; [discriminate|auto].
  - rewrite start_ge. split; [intros [H1 H2]; auto|]. intros [H1 [H2|H2]]; [discriminate|auto].
Qed.
Lemma narrow_all l e : forall g, inr (fold_left (narrow K cmp) l g) e <-> inr g e /\ Forall (fun a => met a e) l.
Proof.
  induction l as [|a l IH]; intro g; cbn [fold_left].
  - split; [auto|tauto].
  - rewrite IH, narrow_ok. split.
    + intros [[H1 H2] H3]. auto.
    + intros [H1 H2]. inversion_clear H2. auto.
Qed.
End R.
(* where strict bounds come from *)
Definition strict_from (l : list (arg K)) (g : range K) : Prop :=
  (forall k, sb K g = Some k -> sincl K g = false -> exists a, In a l /\ acond K a = CGt /\ aval K a = k) /\
  (forall k, eb K g = Some k -> eincl K g = false -> exists a, In a l /\ acond K a = CLt /\ aval K a = k).
Lemma start_if_cases ok v incl (g : range K) : start_if K cmp ok v incl g = {| sb := Some v; sincl := incl; eb := eb K g; eincl := eincl K g; rest := rest K g |} \/ start_if K cmp ok v incl g = g.
Proof. unfold start_if. destruct (match sb K g with Some b => ok (cmp b v) | None => true end); auto. Qed.
Lemma end_if_cases ok v incl (g : range K) : end_if K cmp ok v incl g = {| sb := sb K g; sincl := sincl K g; eb := Some v; eincl := incl; rest := rest K g |} \/ end_if K cmp ok v incl g = g.
Proof. unfold end_if. destruct (match eb K g with Some b => ok (cmp b v) | None => true end); auto. Qed.
Lemma sf_start l ok v incl g : (incl = false -> exists a, In a l /\ acond K a = CGt /\ aval K a = v) -> strict_from l g -> strict_from l (start_if K cmp ok v incl g).
Proof. intros Hi [H1 H2]. destruct (start_if_cases ok v incl g) as [-> | ->]; [|split; auto]. split; cbn; [|exact H2]. intros k E1 E2. injection E1 as <-. auto. Qed.
Lemma sf_end l ok v incl g : (incl = false -> exists a, In a l /\ acond K a = CLt /\ aval K a = v) -> strict_from l g -> strict_from l (end_if K cmp ok v incl g).
Proof. intros Hi [H1 H2]. destruct (end_if_cases ok v incl g) as [-> | ->]; [|split; auto]. split; cbn; [exact H1|]. intros k E1 E2. injection E1 as <-. auto. Qed.
Lemma sf_narrow l g a : In a l -> strict_from l g -> strict_from l (narrow K cmp g a).
Proof.
  intros Ha Hg. unfold narrow. destruct (acond K a) eqn:Ec.
  - apply sf_end; [discriminate|]. apply sf_start; [discriminate|exact Hg].
  - destruct Hg as [H1 H2]. split; cbn; auto.
  - apply sf_end; [intros _; exists a; auto|exact Hg].
  - apply sf_start; [intros _; exists a; auto|exact Hg].
  - apply sf_end; [discriminate|exact Hg].
  - apply sf_start; [discriminate|exact Hg].
Qed.
Lemma sf_all L l : incl l L -> forall g, strict_from L g -> strict_from L (fold_left (narrow K cmp) l g).
Proof.
  induction l as [|a l IH]; intros Hi g Hg; cbn [fold_left]; [exact Hg|]. apply IH; [intros b Hb; apply Hi; now right|]. apply sf_narrow; [apply Hi; now left|exact Hg].
Qed.
Lemma rest_narrow g a : rest K (narrow K cmp g a) = rest K g || (match acond K a with CNe => true | _ => false end).
Proof.
  assert (Hs : forall ok v i g, rest K (start_if K cmp ok v i g) = rest K g) by (intros ok v i g0; destruct (start_if_cases ok v i g0) as [-> | ->]; reflexivity).
  assert (He : forall ok v i g, rest K (end_if K cmp ok v i g) = rest K g) by (intros ok v i g0; destruct (end_if_cases ok v i g0) as [-> | ->]; reflexivity).
  unfold narrow. destruct (acond K a); rewrite ?He, ?Hs, ?orb_false_r; cbn; rewrite ?orb_true_r; reflexivity.
Qed.
Lemma rest_all l : forall g, rest K (fold_left (narrow K cmp) l g) = false -> rest K g = false /\ Forall (fun a => acond K a <> CNe) l.
Proof.
  induction l as [|a l IH]; intro g; cbn [fold_left]; [auto|]. intro H. apply IH in H. destruct H as [H1 H2]. rewrite rest_narrow in H1. apply orb_false_iff in H1. destruct H1 as [H1 H3].
  split; [exact H1|]. constructor; [intro Q; rewrite Q in H3; discriminate|exact H2].
Qed.
Lemma met_some e' (key : Z -> K) f a : (acol K a < length f)%nat -> key e' = nth (acol K a) f null -> (meets cmp f a -> met key a e') /\ (acond K a <> CNe -> met key a e' -> meets cmp f a).
Proof.
  intros Hl Hk. pose proof (nth_error_nth' f null Hl) as Hn. unfold met, meets. rewrite holds_ok, Hk. split.
  - intros (v & H1 & H2). right. rewrite Hn in H1. injection H1 as <-. exact H2.
  - intros Hne [H|H]; [contradiction|]. exists (nth (acol K a) f null). split; [exact Hn|]. destruct (acond K a); auto.
Qed.

(* ---- the index chosen ---- *)
Lemma score_cols a sc c s : In (c, s) (add_score K null same a sc) -> c = acol K a \/ exists s', In (c, s') sc.
Proof.
  induction sc as [|[c1 s1] sc IH]; cbn [add_score].
  - intros [Q|[]]. injection Q as <- <-. auto.
  - destruct (Nat.eqb_spec c1 (acol K a)) as [E|E].
    + intros [Q|Q]; [injection Q as <- <-; left; exact E|right; exists s; now right].
    + intros [Q|Q]; [injection Q as <- <-; right; exists s1; now left|]. destruct (IH Q) as [H|(s' & H)]; [auto|right; exists s'; now right].
Qed.
Lemma scores_from args : forall sc c s, In (c, s) (fold_left (fun sc a => add_score K null same a sc) args sc) -> (exists a, In a args /\ acol K a = c) \/ exists s', In (c, s') sc.
Proof.
  induction args as [|a args IH]; intros sc c s H; cbn [fold_left] in H; [right; eauto|]. apply IH in H. destruct H as [(b & Hb & Hc)|(s' & H)].
  - left. exists b. split; [now right|exact Hc].
  - apply score_cols in H. destruct H as [->|H]; [left; exists a; split; [now left|reflexivity]|auto].
Qed.
Lemma scores_ok args c s : In (c, s) (scores K null same args) -> exists a, In a args /\ acol K a = c.
Proof. intro H. apply scores_from in H. destruct H as [H|(s' & [])]. exact H. Qed.
Lemma tmpl_fits args t : forall j s s', tmpl_score K cmp null same args t j s = (s', true) -> forall i e, nth_error t i = Some (Some e) -> fits_args K cmp args (j + i) e = true.
Proof.
  induction t as [|u t IH]; intros j s s' H i e Hi; [destruct i; discriminate|]. cbn [tmpl_score] in H. destruct u as [u|].
  - destruct (fits_args K cmp args j u) eqn:Ef; [|discriminate]. destruct i as [|i]; [cbn in Hi; injection Hi as <-; rewrite Nat.add_0_r; exact Ef|].
    replace (j + S i)%nat with (S j + i)%nat by lia. eapply IH; eauto.
  - destruct i as [|i]; [discriminate|]. replace (j + S i)%nat with (S j + i)%nat by lia. eapply IH; eauto.
Qed.
Definition usable args h : Prop := forall t, htmpl K h = Some t -> forall i e, nth_error t i = Some (Some e) -> fits_args K cmp args i e = true.
Lemma pick_ok d args l : dgood d -> incl l (map (hid K) (hdrs K d)) -> forall s, exists i s', pick_index K cmp null same (hdrs K d) args l s = Some (i, s') /\
  (i = 0 \/ exists h, In h (hdrs K d) /\ hid K h = i /\ In i l /\ usable args h).
Proof.
  intros Hd. induction l as [|j l IH]; intros Hi s; cbn [pick_index]; [exists 0, 0; auto|].
  destruct (hget_ex (hdrs K d) j (d_ids _ Hd) (Hi j (or_introl eq_refl))) as (h & -> & Hh & <-). pose proof (g_id _ _ (d_hdr _ Hd h Hh)) as Hid.
  destruct (htmpl K h) as [t|] eqn:Et.
  - destruct (tmpl_score K cmp null same args t 0 s) as [s1 [|]] eqn:Es.
    + exists (hid K h), s1. rewrite (to_int_id _ Hid). split; [reflexivity|]. right. exists h. split; [exact Hh|]. split; [reflexivity|]. split; [now left|].
      intros u Hu i e He. rewrite Et in Hu. injection Hu as <-. exact (tmpl_fits _ _ _ _ _ Es i e He).
    + destruct (IH (fun z Hz => Hi z (or_intror Hz)) s1) as (i & s' & E1 & E2). exists i, s'. split; [exact E1|]. destruct E2 as [->|(g & G1 & G2 & G3 & G4)]; [auto|].
      right. exists g. split; [exact G1|]. split; [exact G2|]. split; [now right|exact G4].
  - exists (hid K h), s. rewrite (to_int_id _ Hid). split; [reflexivity|]. right. exists h. split; [exact Hh|]. split; [reflexivity|]. split; [now left|]. intros u Hu. congruence.
Qed.
Definition chosen d args (cols : nat -> Prop) col id : Prop := id <= 0 \/ exists h, In h (hdrs K d) /\ hid K h = id /\ hcol K h = col /\ cols col /\ usable args h.
Lemma best_ok d args (cols : nat -> Prop) sc : dgood d -> (forall c s, In (c, s) sc -> cols c) -> forall top col id, chosen d args cols col id ->
  exists col' id', best K cmp null same d args sc top col id = Some (col', id') /\ chosen d args cols col' id'.
Proof.
  intro Hd. induction sc as [|[c s] sc IH]; intros Hc top col id H; cbn [best]; [eauto|].
  assert (Hc' : forall c s, In (c, s) sc -> cols c) by (intros c0 s0 H0; apply (Hc c0 s0); now right).
  assert (HP : exists i s', (if Nat.leb c max_field then pick_index K cmp null same (hdrs K d) args (table K d c) s else Some (0, 0)) = Some (i, s') /\ chosen d args cols c i).
  { destruct (Nat.leb c max_field); [|exists 0, 0; split; [reflexivity|left; lia]].
    destruct (pick_ok d args (table K d c) Hd (fun z Hz => d_in _ Hd c z (or_introl Hz)) s) as (i & s' & E1 & E2). exists i, s'. split; [exact E1|].
    destruct E2 as [->|(h & H1 & H2 & H3 & H4)]; [left; lia|]. right. exists h. split; [exact H1|]. split; [exact H2|]. split; [|split; [apply (Hc c s); now left|exact H4]].
    symmetry. apply (g_tab _ _ (d_hdr _ Hd h H1)). rewrite H2. exact H3. }
  destruct HP as (i & s' & -> & Hch). destruct (top <? (if i =? 0 then 0 else s')); apply IH; auto.
Qed.
Lemma fits_tmpl args f j e : fits_args K cmp args j e = true -> Forall (meets cmp f) args -> exists v, nth_error f j = Some v /\ cmp e v = Eq.
Proof.
  unfold fits_args. rewrite andb_true_iff, forallb_forall, existsb_exists. intros [H1 (a & Ha & Hj)] HF. rewrite Forall_forall in HF.
  apply Nat.eqb_eq in Hj. pose proof (H1 a Ha) as Hf. rewrite Hj, Nat.eqb_refl in Hf. cbn [negb orb] in Hf. apply andb_true_iff in Hf. destruct Hf as [Hf1 Hf2].
  destruct (HF a Ha) as (v & Hv & Hc). destruct (acond K a); try discriminate. exists v. rewrite <- Hj. split; [exact Hv|].
  assert (E1 : cmp e (aval K a) = Eq) by (destruct (cmp e (aval K a)); try discriminate; reflexivity).
  assert (A1 : cmp e v <> Gt). { eapply c_trans; [exact TO|rewrite E1; discriminate|]. intro Q. apply (gt_lt cmp TO) in Q. congruence. }
  assert (A2 : cmp v e <> Gt). { eapply c_trans; [exact TO|rewrite Hc; discriminate|]. intro Q. apply (gt_lt cmp TO) in Q. congruence. }
  destruct (cmp e v) eqn:Ev; [reflexivity| |contradiction]. exfalso. apply A2. now apply (gt_lt cmp TO).
Qed.
Lemma usable_belongs d h args f : dgood d -> In h (hdrs K d) -> usable args h -> Forall (meets cmp f) args -> (exists a, In a args /\ acol K a = hcol K h) -> belongs h f = true.
Proof.
  intros Hd Hh Hu HF (a & Ha & Hc). unfold belongs. apply andb_true_iff. split.
  - apply Nat.ltb_lt. rewrite Forall_forall in HF. destruct (HF a Ha) as (v & Hv & _). rewrite <- Hc. apply nth_error_Some. congruence.
  - unfold matches. destruct (htmpl K h) as [t|] eqn:Et; [|reflexivity]. apply match_put; [apply (g_tmpl _ _ (d_hdr _ Hd h Hh) t Et)|].
    intros j e Hj. eapply fits_tmpl; [exact (Hu t Et j e Hj)|exact HF].
Qed.

(* ---- the answer ---- *)
Lemma NoDup_map_fst (l : list (Z * list K)) p : NoDup (map fst l) -> NoDup (map fst (filter p l)).
Proof.
  induction l as [|[r f] l IH]; intro H; [constructor|]. cbn [map fst] in H. inversion_clear H as [|? ? Hx Hn]. cbn [filter]. destruct (p (r, f)); [|auto]. cbn [map fst]. constructor; [|auto].
  intro Q. apply Hx. apply in_map_iff in Q. destruct Q as (y & Q1 & Q2). apply filter_In in Q2. rewrite <- Q1. apply in_map. apply Q2.
Qed.
Lemma in_rows d h r : dgood d -> In h (hdrs K d) -> In r (rows (tr (hix K h))) <-> exists f, In (r, f) (recs K d) /\ belongs h f = true.
Proof.
  intros Hd Hh. pose proof (g_rows _ _ (d_hdr _ Hd h Hh)) as HP. split.
  - intro Hr. eapply Permutation_in in Hr; [|exact HP]. apply in_map_iff in Hr. destruct Hr as ([r' f] & <- & Hr). apply filter_In in Hr. exists f. exact Hr.
  - intros (f & H1 & H2). eapply Permutation_in; [symmetry; exact HP|]. apply in_map_iff. exists (r, f). split; [reflexivity|]. apply filter_In. auto.
Qed.
Lemma rows_nodup d h : dgood d -> In h (hdrs K d) -> NoDup (rows (tr (hix K h))).
Proof. intros Hd Hh. eapply Permutation_NoDup; [symmetry; apply (g_rows _ _ (d_hdr _ Hd h Hh))|]. apply NoDup_map_fst. apply Hd. Qed.
Lemma rows_len d h : dgood d -> In h (hdrs K d) -> (length (rows (tr (hix K h))) <= length (recs K d))%nat.
Proof.
  intros Hd Hh. rewrite (Permutation_length (g_rows _ _ (d_hdr _ Hd h Hh))), map_length. clear. induction (recs K d) as [|p l IH]; cbn; [lia|]. destruct (belongs h (snd p)); cbn; lia.
Qed.
Lemma in_rec0 d r f : dgood d -> In (r, f) (recs K d) -> r <> 0.
Proof. intros Hd H Q. apply (d_0 _ Hd). rewrite <- Q. change r with (fst (r, f)). now apply in_map. Qed.
Lemma on_col_in (c : nat) args a : In a (filter (on_col K c) args) <-> In a args /\ acol K a = c.
Proof. rewrite filter_In. unfold on_col. rewrite Nat.eqb_eq. reflexivity. Qed.

Theorem query_ok n d m args limit : dgood d -> ~ empty_gap cmp args -> (length (recs K d) < n)%nat ->
  exists q l, make_query K cmp null same n d m args limit = Some (Some q) /\ answers cmp d m args l /\ yields cmp null n q (if Nat.eqb limit 0 then l else firstn limit l).
Proof.
  intros Hd Hgap Hn. unfold make_query, build_query.
  assert (Hfull : forall A', A' = all_args K m args -> exists q l, match gather K cmp null n n d limit 0 (Qscan K (first_rec K (recs K d)) A') [] with Some ps => Some (Some (Qpre K ps 0)) | None => None end = Some (Some q) /\ answers cmp d m args l /\ yields cmp null n q (if Nat.eqb limit 0 then l else firstn limit l)).
  { intros A' HA. pose proof (scan_walks cmp null d A' (recs K d) [] eq_refl (d_nd _ Hd) (d_0 _ Hd)) as Hw.
    set (l := filter (fun r => check_args K cmp null d r A') (map fst (recs K d))) in *. assert (Hl0 : ~ In 0 l) by (intro Q; apply filter_In in Q; destruct Q as [Q _]; exact (d_0 _ Hd Q)).
    destruct (gathered cmp null d _ _ _ n limit Hw Hn Hl0) as (ps & -> & Hy). exists (Qpre K ps 0), l. split; [reflexivity|]. split; [|exact Hy].
    split; [apply NoDup_filter; apply Hd|]. intro r. unfold l. rewrite filter_In, in_map_iff. split.
    - intros [([r' f] & <- & Hi) Hc]. exists f. split; [exact Hi|]. cbn [fst] in Hc. apply (check_ok d r' f _ (d_nd _ Hd) Hi) in Hc. rewrite HA in Hc. now apply wanted_args.
    - intros (f & Hi & Hw'). split; [exists (r, f); auto|]. apply (check_ok d r f _ (d_nd _ Hd) Hi). rewrite HA. now apply wanted_args. }
  destruct (all_args K m args) as [|a0 A0] eqn:EA; [apply Hfull; reflexivity|]. rewrite <- EA in *. set (A := all_args K m args) in *.
  destruct (best_ok d A (fun c => exists a, In a A /\ acol K a = c) (scores K null same A) Hd (fun c s H => scores_ok A c s H) (-1) 0%nat (-1) ltac:(left; lia)) as (col & id & -> & Hch).
  destruct (Z.leb_spec id 0) as [Hid|Hid]; [apply Hfull; reflexivity|].
  destruct Hch as [Hch|(h & Hh & H1 & H2 & H3 & H4)]; [lia|].
  set (g := fold_left (narrow K cmp) (filter (on_col K col) A) (no_range K)).
  set (A' := if rest K g then A else filter (fun a => negb (on_col K col a)) A).
  set (key := fld d col).
  assert (Hkey : forall r f, In (r, f) (recs K d) -> key r = nth col f null) by (intros r f Hi; unfold key, QyModel.fld; rewrite (fields_in _ _ _ (d_nd _ Hd) Hi); reflexivity).
  (* what the bounds and the other conditions say *)
  assert (Hin : forall r f, In (r, f) (recs K d) -> belongs h f = true -> (Forall (meets cmp f) A <-> inr key g r /\ Forall (meets cmp f) A')).
  { intros r f Hi Hb. unfold belongs in Hb. apply andb_true_iff in Hb. destruct Hb as [Hb _]. apply Nat.ltb_lt in Hb. rewrite H2 in Hb.
    assert (Hg : inr key g r <-> Forall (fun a => met key a r) (filter (on_col K col) A)) by (unfold g; rewrite narrow_all; unfold inr; cbn; tauto).
    assert (Hmet : forall a, In a (filter (on_col K col) A) -> (meets cmp f a -> met key a r) /\ (acond K a <> CNe -> met key a r -> meets cmp f a)).
    { intros a Ha. apply on_col_in in Ha. destruct Ha as [_ Hc]. apply met_some; [rewrite Hc; exact Hb|]. rewrite Hc. now apply Hkey. }
    rewrite Hg. rewrite !Forall_forall. split.
    - intro H. split; [intros a Ha; apply (Hmet a Ha); apply H; apply on_col_in in Ha; apply Ha|].
      intros a Ha. apply H. unfold A' in Ha. destruct (rest K g); [exact Ha|]. apply filter_In in Ha. apply Ha.
    - intros [G1 G2] a Ha. unfold A' in G2. destruct (rest K g) eqn:Er; [now apply G2|].
      destruct (on_col K col a) eqn:Eo.
      + assert (Hfa : In a (filter (on_col K col) A)) by (apply filter_In; auto). apply (Hmet a Hfa); [|now apply G1].
        apply rest_all in Er. destruct Er as [_ Er]. rewrite Forall_forall in Er. now apply Er.
      + apply G2. apply filter_In. rewrite Eo. auto. }
  assert (Hbel : forall f, Forall (meets cmp f) A -> belongs h f = true).
  { intros f HF. eapply usable_belongs; [exact Hd|exact Hh|exact H4|exact HF|]. rewrite H2. exact H3. }
  destruct (match sb K g, eb K g with Some a, Some b => is_gt (cmp a b) | _, _ => false end) eqn:Egt.
  { destruct n as [|n]; [lia|]. exists (Qtree K id 0 (-1) 0 (-1) []), []. split; [reflexivity|]. split.
    - split; [constructor|]. intro r. split; [intros []|]. intros (f & Hi & Hw). apply wanted_args in Hw. destruct (proj1 (Hin r f Hi (Hbel f Hw)) Hw) as [[I1 I2] _].
      destruct (sb K g) as [k1|]; [|discriminate]. destruct (eb K g) as [k2|]; [|discriminate]. apply gt_true in Egt. cbn in I1, I2.
      assert (J1 : cmp k1 (key r) <> Gt) by (intro Q; apply (gt_lt cmp TO) in Q; destruct (sincl K g); congruence).
      assert (J2 : cmp (key r) k2 <> Gt) by (destruct (eincl K g); congruence). apply (c_trans cmp TO k1 (key r) k2 J1 J2). exact Egt.
    - rewrite firstn_nil. destruct (Nat.eqb limit 0); apply y_end; intro d'; exists (Qtree K id 0 (-1) 0 (-1) []); (split; [reflexivity|intro; cbn; eauto]). }
  rewrite <- H1, (hget_in _ _ (d_ids _ Hd) Hh).
  assert (Hinv : inv cmp key (hix K h)) by (unfold key; rewrite <- H2; apply (d_hdr _ Hd h Hh)).
  destruct (bounds_ok cmp key TO (hix K h) (sb K g) (sincl K g) (eb K g) (eincl K g) Hinv) as (co & cs & eo & es & co' & cs' & eo' & es' & L & M & R & E1 & E2 & E3 & E4 & E5 & E6 & E7 & E8 & E9).
  { intros k1 k2 B1 B2. rewrite B1, B2 in Egt. split; [intro Q; rewrite Q in Egt; discriminate|]. intro Heq.
    assert (HS : strict_from (filter (on_col K col) A) g) by (apply sf_all; [apply incl_refl|split; discriminate]).
    destruct (sincl K g) eqn:I1; [auto|]. destruct (eincl K g) eqn:I2; [auto|]. exfalso. apply Hgap. apply (gap_args m). destruct HS as [S1 S2].
    destruct (S1 k1 B1 I1) as (a & Ha & Ha2 & Ha3). destruct (S2 k2 B2 I2) as (b & Hb & Hb2 & Hb3). apply on_col_in in Ha, Hb. exists a, b. destruct Ha as [Ha Ha4], Hb as [Hb Hb4].
    split; [exact Ha|]. split; [exact Hb|]. split; [congruence|]. split; [exact Ha2|]. split; [exact Hb2|]. rewrite Ha3, Hb3. exact Heq. }
  fold key. rewrite E1, E2, E3.
  pose proof (path_walks cmp null d (hid K h) h eo' es' A' co' cs' M (hget_in _ _ (d_ids _ Hd) Hh) E9) as Hw. set (l := filter (fun r => check_args K cmp null d r A') M) in *.
  assert (HM : forall r, In r M -> exists f, In (r, f) (recs K d) /\ belongs h f = true).
  { intros r Hr. apply (in_rows d h r Hd Hh). rewrite E4, !in_app_iff. auto. }
  assert (Hlen : (length M < n)%nat) by (pose proof (rows_len d h Hd Hh) as Q; rewrite E4, !app_length in Q; lia).
  assert (Hl0 : ~ In 0 l) by (intro Q; apply filter_In in Q; destruct Q as [Q _]; destruct (HM 0 Q) as (f & Hf & _); exact (in_rec0 d 0 f Hd Hf eq_refl)).
  destruct (gathered cmp null d _ _ _ n limit Hw Hlen Hl0) as (ps & -> & Hy). exists (Qpre K ps 0), l. split; [reflexivity|]. split; [|exact Hy].
  pose proof (rows_nodup d h Hd Hh) as Hnd. rewrite E4 in Hnd. split; [apply NoDup_filter; apply NoDup_app_r in Hnd; apply NoDup_app_l in Hnd; exact Hnd|].
  rewrite Forall_forall in E5, E6, E7, E8. intro r. unfold l. rewrite filter_In. split.
  - intros [Hr Hc]. destruct (HM r Hr) as (f & Hi & Hb). exists f. split; [exact Hi|]. apply wanted_args. apply (Hin r f Hi Hb). split; [split; [now apply E6|now apply E7]|].
    now apply (check_ok d r f _ (d_nd _ Hd) Hi).
  - intros (f & Hi & Hw'). apply wanted_args in Hw'. pose proof (Hbel f Hw') as Hb. destruct (proj1 (Hin r f Hi Hb) Hw') as [[I1 I2] I3].
    assert (Hr : In r (rows (tr (hix K h)))) by (apply (in_rows d h r Hd Hh); eauto). rewrite E4, !in_app_iff in Hr. destruct Hr as [Hr|[Hr|Hr]].
    + exfalso. exact (E5 r Hr I1).
    + split; [exact Hr|]. now apply (check_ok d r f _ (d_nd _ Hd) Hi).
    + exfalso. exact (E8 r Hr I2).
Qed.
End P.
