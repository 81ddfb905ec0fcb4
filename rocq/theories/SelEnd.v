(** The choice of literals: the theorems. *)
From Coq Require Import List ZArith Bool Lia Permutation.
From Verif Require Import Terms TermsProof OrdModel OrdSpec OrdProof OrdThm SelModel SelSpec SelProof SelThm.
Import ListNotations.
Open Scope Z_scope.

Section End_.
Variable word : cst -> Z.
Variable is_uri : cst -> bool.
Variable uid : cst -> Z.
Variable hard : bool -> term -> Z.
Notation cmpl := (compare_lits word is_uri uid).
Notation big := (bigger word is_uri uid).

Lemma csts_incl cl l : In l cl -> incl (tcsts (atom l)) (csts cl).
Proof. intros H c Hc. apply in_flat_map. eauto. Qed.
Lemma nth_map_seq (f : nat -> bool) n i : (i < n)%nat -> nth_error (map f (seq 0 n)) i = Some (f i).
Proof.
  intro H. rewrite nth_error_map. assert (E : nth_error (seq 0 n) i = Some i).
  { rewrite (nth_error_nth' (seq 0 n) 0%nat) by now rewrite seq_length. now rewrite seq_nth by exact H. }
  now rewrite E.
Qed.
(** under the ordering strategy *)
Lemma kb_exact_raw cl i l : orderly word is_uri uid (csts cl) -> length cl <> 1%nat -> nth_error cl i = Some l ->
  nth_error (kb_select word is_uri uid cl) i = Some true <->
  ordinary l /\ forall k, In k cl -> ordinary k -> cmpl (ent (atom k)) (ent (atom l)) <> 1.
Proof.
  intros [rank Hr] Hl Hi. assert (Lt : (i < length cl)%nat) by (apply nth_error_Some; congruence).
  unfold kb_select. rewrite (proj2 (Nat.eqb_neq _ _) Hl). rewrite nth_map_seq by exact Lt.
  assert (Hin : In l cl) by (eapply nth_error_In; exact Hi).
  assert (Hm : nth_error (map info cl) i = Some (info l)) by (rewrite nth_error_map, Hi; reflexivity).
  assert (Mem : forall x, mem (map info cl) x -> exists k, In k cl /\ ordinary k /\ x = ent (atom k)).
  { intros x Hx. unfold mem in Hx. apply in_map_iff in Hx as (k&E&Hk). apply info_some in E as [O ->]. eauto. }
  destruct (info l) as [e|] eqn:El.
  - apply info_some in El as [O ->].
    assert (X : kb_outer word is_uri uid (map info cl) 0 (fun _ => true) i = true <-> forall y, mem (map info cl) y -> cmpl y (ent (atom l)) <> 1).
    { apply outer_exact; [| | |exact Hm].
      - intros x y Hx Hy. destruct (Mem x Hx) as (k&Hk&_&->), (Mem y Hy) as (k'&Hk'&_&->).
        apply (cmpl_flip word is_uri uid (csts cl) rank Hr); now apply csts_incl.
      - intros x Hx. destruct (Mem x Hx) as (k&Hk&_&->). apply (cmpl_irr word is_uri uid (csts cl) rank Hr). now apply csts_incl.
      - intros x y z Hx Hy Hz. destruct (Mem x Hx) as (k&Hk&_&->), (Mem y Hy) as (k'&Hk'&_&->), (Mem z Hz) as (k2&Hk2&_&->).
        apply (cmpl_trans word is_uri uid (csts cl) rank Hr); now apply csts_incl. }
    split.
    + intro E. injection E as E. split; [exact O|]. intros k Hk Ok. apply (proj1 X E). unfold mem. rewrite <- (info_ord k Ok). now apply in_map.
    + intros [_ H]. f_equal. apply X. intros y Hy. destruct (Mem y Hy) as (k&Hk&Ok&->). now apply H.
  - split.
    + intro E. injection E as E. pose proof (outer_none word is_uri uid (map info cl) 0 (fun _ => true) i) as N. cbn [Nat.add] in N. rewrite N in E; [discriminate|exact Hm].
    + intros [O _]. rewrite (info_ord l O) in El. discriminate.
Qed.
Lemma kb_some cl : orderly word is_uri uid (csts cl) -> (exists l, In l cl /\ ordinary l) ->
  exists i l, ordinary l /\ selected cl (kb_select word is_uri uid cl) i l.
Proof.
  intros Or (l&Hl&O). destruct (Nat.eq_dec (length cl) 1) as [E1|E1].
  - destruct cl as [|a [|b cl]]; try discriminate. destruct Hl as [->|[]]. exists 0%nat, l. split; [exact O|split; reflexivity].
  - destruct Or as [rank Hr].
    assert (G : exists k, In k cl /\ ordinary k /\ forall k', In k' cl -> ordinary k' -> cmpl (ent (atom k')) (ent (atom k)) <> 1).
    { assert (Me : forall x, mem (map info cl) x -> exists k, In k cl /\ ordinary k /\ x = ent (atom k)).
      { intros x Hx. unfold mem in Hx. apply in_map_iff in Hx as (k&E&Hk). apply info_some in E as [Ok ->]. eauto. }
      destruct (max_above word is_uri uid (map info cl)) with (n := length (filter (above word is_uri uid (ent (atom l))) (map info cl))) (x := ent (atom l)) as (y&Hy&_&M).
      - intros x Hx. destruct (Me x Hx) as (k&Hk&_&->). apply (cmpl_irr word is_uri uid (csts cl) rank Hr). now apply csts_incl.
      - intros x y z Hx Hy Hz. destruct (Me x Hx) as (k&Hk&_&->), (Me y Hy) as (k'&Hk'&_&->), (Me z Hz) as (k2&Hk2&_&->).
        apply (cmpl_trans word is_uri uid (csts cl) rank Hr); now apply csts_incl.
      - unfold mem. rewrite <- (info_ord l O). now apply in_map.
      - lia.
      - destruct (Me y Hy) as (k&Hk&Ok&->). exists k. repeat split; auto; try apply Ok. intros k' Hk' Ok'. apply M. unfold mem. rewrite <- (info_ord k' Ok'). now apply in_map. }
    destruct G as (k&Hk&Ok&M). destruct (In_nth_error _ _ Hk) as (i&Hi). exists i, k. split; [exact Ok|]. split; [exact Hi|].
    apply (kb_exact_raw cl i k); [now exists rank|exact E1|exact Hi|]. split; [exact Ok|exact M].
Qed.

(** * The other strategies *)
Definition hstep (s : flags) (p : lit -> bool) (m : Z) (l : lit) : Z :=
  if negb (ans l) && negb (spc l) && computed s l && p l && (m <? hardness hard s l) then hardness hard s l else m.
Lemma max_hard_ge s p cl l : In l cl -> ordinary l -> computed s l = true -> p l = true -> hardness hard s l <= max_hard hard s p cl.
Proof.
  intros Hin [A B] C P. change (max_hard hard s p cl) with (fold_left (hstep s p) cl min_hardness). set (f := hstep s p).
  assert (Mono : forall ls m, m <= fold_left f ls m).
  { induction ls as [|k ls IH]; intro m; cbn [fold_left]; [lia|]. specialize (IH (f m k)). change (f m k) with (hstep s p m k) in *. unfold hstep in *.
    destruct (negb (ans k) && negb (spc k) && computed s k && p k && (m <? hardness hard s k)) eqn:E; [|exact IH].
    apply andb_prop in E as [_ E]. apply Z.ltb_lt in E. lia. }
  generalize min_hardness as m. induction cl as [|k cl IH]; intro m; [destruct Hin|]. cbn [fold_left]. destruct Hin as [->|Hin]; [|now apply IH].
  etransitivity; [|apply Mono]. change (f m l) with (hstep s p m l). unfold hstep. rewrite A, B, C, P. cbn [negb andb]. destruct (Z.ltb_spec m (hardness hard s l)); lia.
Qed.
Lemma max_hard_at s p cl : (forall b t, min_hardness <= hard b t) ->
  (exists l, In l cl /\ ordinary l /\ computed s l = true /\ p l = true) ->
  exists l, In l cl /\ ordinary l /\ computed s l = true /\ p l = true /\ max_hard hard s p cl <= hardness hard s l.
Proof.
  intros Hh (l0&H0&O0&C0&P0). change (max_hard hard s p cl) with (fold_left (hstep s p) cl min_hardness). set (f := hstep s p).
  assert (G : forall ls m, incl ls cl -> fold_left f ls m = m \/
    exists l, In l cl /\ ordinary l /\ computed s l = true /\ p l = true /\ fold_left f ls m <= hardness hard s l).
  { induction ls as [|k ls IH]; intros m Hi; cbn [fold_left]; [auto|]. destruct (IH (f m k)) as [E|E]; [intros a Ha; apply Hi; now right| |auto].
    rewrite E. change (f m k) with (hstep s p m k). unfold hstep. destruct (negb (ans k) && negb (spc k) && computed s k && p k && (m <? hardness hard s k)) eqn:F; [|auto].
    right. apply andb_prop in F as [F _]. apply andb_prop in F as [F F4]. apply andb_prop in F as [F F3]. apply andb_prop in F as [F1 F2].
    exists k. split; [apply Hi; now left|]. split; [split; now apply negb_true_iff|]. repeat split; auto. lia. }
  destruct (G cl min_hardness (incl_refl _)) as [E|E]; [|exact E]. exists l0. rewrite E. repeat split; auto; try apply O0.
  unfold hardness. rewrite C0. apply Hh.
Qed.
Definition ml := mark_lit hard.
Lemma ml_nonord s aa hp cl fl l : ~ ordinary l -> snd (ml s aa hp cl fl l) = fl.
Proof. intro H. unfold ml, mark_lit. destruct (ans l) eqn:A; [reflexivity|]. destruct (spc l) eqn:B; [reflexivity|]. exfalso. apply H. now split. Qed.
Lemma ml_false s aa hp cl fl l : fst (ml s aa hp cl fl l) = false -> snd (ml s aa hp cl fl l) = fl.
Proof.
  unfold ml, mark_lit, once. intro H.
  repeat match goal with |- context [if ?c then _ else _] => destruct c eqn:?; cbn [fst snd] in *; try reflexivity; try discriminate end.
Qed.
Lemma mark_all_ex s aa hp cl : forall ls, (exists l, In l ls /\ ordinary l /\ fst (ml s aa hp cl false l) = true) ->
  exists i l, ordinary l /\ nth_error ls i = Some l /\ nth_error (mark_all hard s aa hp cl false ls) i = Some true.
Proof.
  induction ls as [|k ls IH]; intros (l&Hl&O&E); [destruct Hl|]. cbn [mark_all]. destruct (mark_lit hard s aa hp cl false k) as [r fl] eqn:Ek.
  assert (D : ordinary k /\ r = true \/ fl = false).
  { destruct (ans k) eqn:A; [right; pose proof (ml_nonord s aa hp cl false k) as N; unfold ml in N; rewrite Ek in N; apply N; intros [? _]; congruence|].
    destruct (spc k) eqn:B; [right; pose proof (ml_nonord s aa hp cl false k) as N; unfold ml in N; rewrite Ek in N; apply N; intros [_ ?]; congruence|].
    destruct r; [left; split; [now split|reflexivity]|right]. pose proof (ml_false s aa hp cl false k) as N. unfold ml in N. rewrite Ek in N. now apply N. }
  destruct D as [[Ok ->]| ->]; [exists 0%nat, k; auto|]. destruct Hl as [->|Hl].
  - unfold ml in E. rewrite Ek in E. cbn in E. subst r. exists 0%nat, l. auto.
  - destruct IH as (i&l'&O'&A&B); [exists l; auto|]. exists (S i), l'. auto.
Qed.
Lemma has_neg_ex cl : has_neg cl = true <-> exists l, In l cl /\ ans l = false /\ neg l = true.
Proof.
  unfold has_neg. rewrite existsb_exists. split; intros (l&H&E).
  - apply andb_prop in E as [A B]. apply negb_true_iff in A. eauto.
  - exists l. destruct E as [-> ->]. auto.
Qed.
Lemma has_pos_ex cl : has_pos cl = true <-> exists l, In l cl /\ ans l = false /\ neg l = false.
Proof.
  unfold has_pos. rewrite existsb_exists. split; intros (l&H&E).
  - apply andb_prop in E as [A B]. apply negb_true_iff in A. apply negb_true_iff in B. eauto.
  - exists l. destruct E as [-> ->]. auto.
Qed.
Theorem some_left s aa hp cl : (forall b t, min_hardness <= hard b t) -> orderly word is_uri uid (csts cl) -> accompanied cl ->
  (exists l, In l cl /\ ordinary l) -> exists i l, ordinary l /\ selected cl (select word is_uri uid hard s aa hp cl) i l.
Proof.
  intros Hh Or Ac Ex. unfold select. destruct (Nat.eqb_spec (length cl) 1) as [E1|E1].
  { destruct Ex as (l&Hl&O). destruct cl as [|a [|b cl]]; try discriminate. destruct Hl as [->|[]]. exists 0%nat, l. split; [exact O|split; reflexivity]. }
  destruct (negb aa && kb s); [now apply kb_some|].
  assert (Ng : has_neg cl = true -> exists l, In l cl /\ ordinary l /\ neg l = true).
  { intro H. apply has_neg_ex in H as (l&Hl&A&B). destruct (Ac l Hl A) as (k&Hk&Ok&N). exists k. rewrite N. auto. }
  assert (Ps : has_pos cl = true -> exists l, In l cl /\ ordinary l /\ neg l = false).
  { intro H. apply has_pos_ex in H as (l&Hl&A&B). destruct (Ac l Hl A) as (k&Hk&Ok&N). exists k. rewrite N. auto. }
  destruct (negb aa && hyper s && has_neg cl && negb hp) eqn:Eh.
  { apply andb_prop in Eh as [Eh _]. apply andb_prop in Eh as [_ Eh]. destruct (Ng Eh) as (l&Hl&O&N). destruct (In_nth_error _ _ Hl) as (i&Hi).
    exists i, l. split; [exact O|]. split; [exact Hi|]. rewrite nth_error_map, Hi. cbn. now rewrite N. }
  destruct (negb aa && negb (has_neg cl) && (negpref s || hyper s)) eqn:En; [now apply kb_some|].
  destruct (negb aa && negb (has_pos cl) && pospref s) eqn:Ep; [now apply kb_some|].
  unfold selected.
  cut (exists l, In l cl /\ ordinary l /\ fst (ml s aa hp cl false l) = true).
  { intro G. destruct (mark_all_ex s aa hp cl cl G) as (i&l&O&A&B). eauto. }
  destruct aa.
  { destruct Ex as (l&Hl&O). exists l. split; [exact Hl|]. split; [exact O|]. unfold ml, mark_lit. destruct O as [-> ->]. reflexivity. }
  cbn [negb andb] in *.
  assert (Top : forall p, (exists l, In l cl /\ ordinary l /\ computed s l = true /\ p l = true) ->
     exists l, In l cl /\ ordinary l /\ p l = true /\ (hardness hard s l <? max_hard hard s p cl) = false).
  { intros p H. destruct (max_hard_at s p cl Hh H) as (l&A&B&_&D&E). exists l. split; [exact A|]. split; [exact B|]. split; [exact D|]. now apply Z.ltb_ge. }
  destruct (negpref s) eqn:Fn.
  { cbn [orb] in En. rewrite andb_true_r in En. apply negb_false_iff in En. destruct (Ng En) as (l0&H0&O0&N0).
    destruct (Top neg) as (l&Hl&O&N&T).
    { exists l0. split; [exact H0|]. split; [exact O0|]. split; [|exact N0]. unfold computed. now rewrite N0, Fn. }
    exists l. split; [exact Hl|]. split; [exact O|]. unfold ml, mark_lit. destruct O as [-> ->]. rewrite Fn, N. cbn [negb]. now rewrite T. }
  destruct (pospref s) eqn:Fp.
  { rewrite andb_true_r in Ep. apply negb_false_iff in Ep. destruct (Ps Ep) as (l0&H0&O0&N0).
    destruct (Top (fun l => negb (neg l))) as (l&Hl&O&N&T).
    { exists l0. split; [exact H0|]. split; [exact O0|]. split; [|now rewrite N0]. unfold computed. now rewrite N0, Fp. }
    exists l. split; [exact Hl|]. split; [exact O|]. apply negb_true_iff in N. unfold ml, mark_lit. destruct O as [-> ->]. rewrite Fn, Fp, N. now rewrite T. }
  destruct (qfocus s) eqn:Fq.
  { destruct (Top (fun _ => true)) as (l&Hl&O&_&T).
    { destruct Ex as (l0&H0&O0). exists l0. split; [exact H0|]. split; [exact O0|]. split; [|reflexivity]. unfold computed. rewrite Fn, Fp, Fq. now destruct (neg l0). }
    exists l. split; [exact Hl|]. split; [exact O|]. unfold ml, mark_lit. destruct O as [-> ->]. rewrite Fn, Fp, Fq. now rewrite T. }
  destruct (hyper s && hp && has_neg cl) eqn:Fh.
  { apply andb_prop in Fh as [Fh1 Fh3]. apply andb_prop in Fh1 as [Fh1 Fh2]. destruct (Ng Fh3) as (l0&H0&O0&N0).
    destruct (Top neg) as (l&Hl&O&N&T).
    { exists l0. split; [exact H0|]. split; [exact O0|]. split; [|exact N0]. unfold computed. rewrite N0, Fh1. rewrite !orb_true_r. reflexivity. }
    exists l. split; [exact Hl|]. split; [exact O|]. unfold ml, mark_lit. destruct O as [-> ->]. rewrite Fn, Fp, Fq, Fh1, Fh2, Fh3, N. cbn [negb andb]. now rewrite T. }
  destruct (hardpref s) eqn:Fd.
  { destruct (Top (fun _ => true)) as (l&Hl&O&_&T).
    { destruct Ex as (l0&H0&O0). exists l0. split; [exact H0|]. split; [exact O0|]. split; [|reflexivity]. unfold computed. rewrite Fn, Fp, Fq, Fd. now destruct (neg l0). }
    exists l. split; [exact Hl|]. split; [exact O|]. unfold ml, mark_lit. destruct O as [-> ->]. rewrite Fn, Fp, Fq, Fh, Fd. now rewrite T. }
  destruct Ex as (l&Hl&O). exists l. split; [exact Hl|]. split; [exact O|]. unfold ml, mark_lit. destruct O as [-> ->]. now rewrite Fn, Fp, Fq, Fh, Fd.
Qed.
Theorem kb_exact s hp cl i l : kb s = true -> orderly word is_uri uid (csts cl) -> (forall k, In k cl -> few_vars (atom k)) ->
  (2 <= length cl)%nat -> nth_error cl i = Some l ->
  selected cl (select word is_uri uid hard s false hp cl) i l <->
  ordinary l /\ forall k, In k cl -> ordinary k -> ~ big (atom k) (atom l).
Proof.
  intros Hk Or Fv Hl Hi. unfold selected, select. destruct (Nat.eqb_spec (length cl) 1); [lia|]. rewrite Hk. cbn [negb andb].
  rewrite (kb_exact_raw cl i l Or ltac:(lia) Hi). destruct Or as [rank Hr].
  assert (Hin : In l cl) by (eapply nth_error_In; exact Hi).
  split.
  - intros [_ [O M]]. split; [exact O|]. intros k Hk' Ok B. apply (M k Hk' Ok).
    apply (cmpl_bigger word is_uri uid (csts cl) rank Hr); auto using csts_incl.
  - intros [O M]. split; [exact Hi|]. split; [exact O|]. intros k Hk' Ok B. apply (M k Hk' Ok).
    apply (cmpl_bigger word is_uri uid (csts cl) rank Hr) in B; auto using csts_incl.
Qed.
(* ordered preferences *)
Theorem hyper_exact s cl i l : kb s = false -> hyper s = true -> (2 <= length cl)%nat ->
  (exists k, In k cl /\ ans k = false /\ neg k = true) -> nth_error cl i = Some l ->
  selected cl (select word is_uri uid hard s false false cl) i l <-> neg l = true.
Proof.
  intros Hk Hh Hl Ex Hi. apply has_neg_ex in Ex. unfold selected, select. destruct (Nat.eqb_spec (length cl) 1); [lia|].
  rewrite Hk, Hh, Ex. cbn [negb andb]. rewrite nth_error_map, Hi. cbn. split; [intros [_ E]; now injection E|intros ->; auto].
Qed.
Theorem all_allowed s hp cl i l : nth_error cl i = Some l -> ordinary l ->
  selected cl (select word is_uri uid hard s true hp cl) i l.
Proof.
  intros Hi [A B]. unfold selected, select. destruct (Nat.eqb_spec (length cl) 1) as [E|E].
  - destruct cl as [|a [|b cl]]; try discriminate. destruct i as [|[|i]]; try discriminate. auto.
  - cbn [negb andb]. split; [exact Hi|]. generalize false as fl. generalize cl at 1 as c0. revert i Hi.
    clear E. induction cl as [|k cl IH]; intros [|i] Hi c0 fl; try discriminate; cbn [mark_all].
    + cbn in Hi. injection Hi as ->. unfold mark_lit. rewrite A, B. reflexivity.
    + destruct (mark_lit hard s true hp c0 fl k) as [r f]. cbn in Hi |- *. now apply IH.
Qed.
Lemma once_unique s hp cl (want : lit -> bool) :
  (forall l fl, ordinary l -> fst (ml s false hp cl fl l) = true -> want l = true /\ fl = false /\ snd (ml s false hp cl fl l) = true) ->
  forall ls fl i l, ordinary l -> nth_error ls i = Some l -> nth_error (mark_all hard s false hp cl fl ls) i = Some true ->
  want l = true /\ fl = false /\
  forall j k, ordinary k -> nth_error ls j = Some k -> nth_error (mark_all hard s false hp cl fl ls) j = Some true -> j = i.
Proof.
  intro H.
  assert (N : forall ls i l, ordinary l -> nth_error ls i = Some l -> nth_error (mark_all hard s false hp cl true ls) i <> Some true).
  { induction ls as [|k ls IH]; intros [|i] l O Hi E; try discriminate; cbn [mark_all] in E; destruct (mark_lit hard s false hp cl true k) as [r f] eqn:Ek.
    - cbn in Hi, E. injection Hi as ->. injection E as ->. destruct (H l true O) as (_&F&_); [unfold ml; now rewrite Ek|discriminate].
    - cbn in Hi, E. assert (f = true).
      { destruct (ans k) eqn:A; [pose proof (ml_nonord s false hp cl true k) as Q; unfold ml in Q; rewrite Ek in Q; apply Q; intros [? _]; congruence|].
        destruct (spc k) eqn:B; [pose proof (ml_nonord s false hp cl true k) as Q; unfold ml in Q; rewrite Ek in Q; apply Q; intros [_ ?]; congruence|].
        destruct r; [destruct (H k true (conj A B)) as (_&F&_); [unfold ml; now rewrite Ek|discriminate]|].
        pose proof (ml_false s false hp cl true k) as Q. unfold ml in Q. rewrite Ek in Q. now apply Q. }
      subst f. now apply (IH i l). }
  induction ls as [|k ls IH]; intros fl i l O Hi E; [destruct i; discriminate|]. cbn [mark_all] in E |- *.
  destruct (mark_lit hard s false hp cl fl k) as [r f] eqn:Ek.
  assert (C : (ordinary k /\ r = true /\ want k = true /\ fl = false /\ f = true) \/ (f = fl /\ (ordinary k -> r = false))).
  { destruct (ans k) eqn:A; [right; pose proof (ml_nonord s false hp cl fl k) as Q; unfold ml in Q; rewrite Ek in Q; split; [apply Q|]; intros [? _]; congruence|].
    destruct (spc k) eqn:B; [right; pose proof (ml_nonord s false hp cl fl k) as Q; unfold ml in Q; rewrite Ek in Q; split; [apply Q|]; intros [_ ?]; congruence|].
    destruct r; [left|right].
    - destruct (H k fl (conj A B)) as (W&F&G); [unfold ml; now rewrite Ek|]. unfold ml in G. rewrite Ek in G. cbn in G. split; [now split|]. auto.
    - pose proof (ml_false s false hp cl fl k) as Q. unfold ml in Q. rewrite Ek in Q. split; [now apply Q|auto]. }
  destruct C as [(Ok&->&W&->&->)|[-> Nk]].
  - destruct i as [|i]; cbn in Hi, E; [|exfalso; now apply (N ls i l)]. injection Hi as ->. split; [exact W|]. split; [reflexivity|].
    intros [|j] k' O' Hj Ej; [reflexivity|]. cbn in Hj, Ej. exfalso. now apply (N ls j k').
  - destruct i as [|i]; cbn in Hi, E.
    + injection Hi as ->. rewrite (Nk O) in E. discriminate.
    + destruct (IH fl i l O Hi E) as (W&F&U). split; [exact W|]. split; [exact F|]. intros [|j] k' O' Hj Ej; cbn in Hj, Ej.
      * injection Hj as ->. rewrite (Nk O') in Ej. discriminate.
      * f_equal. now apply (U j k').
Qed.
(* a sign is preferred: one literal of that sign, of the greatest hardness *)
Theorem neg_preferred s hp cl i l : kb s = false -> negpref s = true -> pospref s = false -> hyper s = false -> (2 <= length cl)%nat ->
  (exists k, In k cl /\ ans k = false /\ neg k = true) -> ordinary l ->
  selected cl (select word is_uri uid hard s false hp cl) i l ->
  neg l = true /\ (forall k, In k cl -> ordinary k -> neg k = true -> hard false (atom k) <= hard false (atom l)) /\
  forall j k, ordinary k -> selected cl (select word is_uri uid hard s false hp cl) j k -> j = i.
Proof.
  intros Hk Hn Hp Hy Hl Ex O. apply has_neg_ex in Ex.
  assert (Es : select word is_uri uid hard s false hp cl = mark_all hard s false hp cl false cl).
  { unfold select. destruct (Nat.eqb_spec (length cl) 1); [lia|]. rewrite Hk, Ex, Hn, Hp, Hy. cbn [negb andb orb]. now rewrite andb_false_r. }
  rewrite Es. intros [Hi Se].
  assert (M : forall k fl, ordinary k -> fst (ml s false hp cl fl k) = true ->
     (neg k && negb (hardness hard s k <? max_hard hard s neg cl)) = true /\ fl = false /\ snd (ml s false hp cl fl k) = true).
  { intros k fl [A B]. unfold ml, mark_lit. rewrite A, B, Hn, Ex. destruct (neg k); cbn [negb]; [|discriminate].
    destruct (hardness hard s k <? max_hard hard s neg cl); [discriminate|]. unfold once. destruct fl; [discriminate|]. auto. }
  destruct (once_unique s hp cl _ M cl false i l O Hi Se) as (W&_&U). apply andb_prop in W as [W1 W2]. split; [exact W1|]. split.
  - intros k Hin Ok Nk. apply negb_true_iff, Z.ltb_ge in W2.
    pose proof (max_hard_ge s neg cl k Hin Ok) as G. unfold hardness, computed in *. rewrite Nk, W1, Hn in *. cbn [orb negb] in *. specialize (G eq_refl eq_refl). lia.
  - intros j k Ok [Hj Ej]. now apply (U j k).
Qed.
Theorem pos_preferred s hp cl i l : kb s = false -> negpref s = false -> pospref s = true -> hyper s = false -> (2 <= length cl)%nat ->
  (exists k, In k cl /\ ans k = false /\ neg k = false) -> ordinary l ->
  selected cl (select word is_uri uid hard s false hp cl) i l ->
  neg l = false /\ (forall k, In k cl -> ordinary k -> neg k = false -> hard true (atom k) <= hard true (atom l)) /\
  forall j k, ordinary k -> selected cl (select word is_uri uid hard s false hp cl) j k -> j = i.
Proof.
  intros Hk Hn Hp Hy Hl Ex O. apply has_pos_ex in Ex.
  assert (Es : select word is_uri uid hard s false hp cl = mark_all hard s false hp cl false cl).
  { unfold select. destruct (Nat.eqb_spec (length cl) 1); [lia|]. rewrite Hk, Ex, Hn, Hp, Hy. cbn [negb andb orb]. now rewrite andb_false_r. }
  rewrite Es. intros [Hi Se].
  assert (M : forall k fl, ordinary k -> fst (ml s false hp cl fl k) = true ->
     (negb (neg k) && negb (hardness hard s k <? max_hard hard s (fun l => negb (neg l)) cl)) = true /\ fl = false /\ snd (ml s false hp cl fl k) = true).
  { intros k fl [A B]. unfold ml, mark_lit. rewrite A, B, Hn, Hp, Ex. destruct (neg k); cbn [negb]; [discriminate|].
    destruct (hardness hard s k <? max_hard hard s (fun l => negb (neg l)) cl); [discriminate|]. unfold once. destruct fl; [discriminate|]. auto. }
  destruct (once_unique s hp cl _ M cl false i l O Hi Se) as (W&_&U). apply andb_prop in W as [W1 W2]. apply negb_true_iff in W1. split; [exact W1|]. split.
  - intros k Hin Ok Nk. apply negb_true_iff, Z.ltb_ge in W2.
    pose proof (max_hard_ge s (fun l => negb (neg l)) cl k Hin Ok) as G. unfold hardness, computed in *. rewrite Nk, W1, Hp in *. cbn [orb negb] in *. specialize (G eq_refl eq_refl). lia.
  - intros j k Ok [Hj Ej]. now apply (U j k).
Qed.

(** * The order *)
Lemma kind_orderly cs : same_kind word is_uri uid cs -> orderly word is_uri uid cs.
Proof.
  intros [W [N|[U I]]].
  - exists (fun c => - word c). intros c d Hc Hd D. assert (word c <> word d) by (intro E; apply D; now apply W).
    split; [lia|]. split; [assumption|]. unfold below. rewrite (N c Hc). cbn [andb]. lia.
  - exists uid. intros c d Hc Hd D. split; [intro E; apply D; now apply I|]. split; [intro E; apply D; now apply W|].
    unfold below. rewrite (U c Hc), (U d Hd). cbn [andb]. lia.
Qed.
Lemma big_irrefl x : ~ big x x.
Proof.
  intros [_ [H|[_ H]]]; [lia|]. revert H. induction x as [i|c|fs IH] using term_ind'; intro H; inversion H as [? ? B| | |p f g fs' gs' E L A1 A2]; subst; [|lia|].
  - unfold below in B. destruct (is_uri c && is_uri c); lia.
  - apply app_inv_head in A2. injection A2 as -> _. rewrite Forall_forall in IH. apply (IH f); [apply in_or_app; right; now left|exact L].
Qed.
Lemma big_trans x y z : orderly word is_uri uid (tcsts x ++ tcsts y ++ tcsts z) -> big x y -> big y z -> big x z.
Proof.
  intros [rank Hr]. set (cs := tcsts x ++ tcsts y ++ tcsts z) in *.
  assert (Hx : incl (tcsts x) cs) by (intros a Ha; apply in_or_app; auto).
  assert (Hy : incl (tcsts y) cs) by (intros a Ha; apply in_or_app; right; apply in_or_app; auto).
  assert (Hz : incl (tcsts z) cs) by (intros a Ha; apply in_or_app; right; apply in_or_app; auto).
  rewrite <- !(kbo_bigger word is_uri uid cs rank Hr) by assumption. apply kbo_trans.
Qed.
Lemma lex_big_stable s x y : lex_bigger word is_uri uid x y -> lex_bigger word is_uri uid (app s x) (app s y).
Proof.
  induction 1 as [c d B|fs d|fs gs L|p f g fs gs E L IH]; cbn [app].
  - now constructor.
  - constructor.
  - constructor. now rewrite !map_length.
  - rewrite !map_app. cbn [map]. constructor; [now rewrite !map_length|exact IH].
Qed.
Lemma big_stable s x y : (forall i, headed (s i)) -> big x y -> big (app s x) (app s y).
Proof.
  intros Hs [C W]. assert (C' : forall v, (cnt v (tvars y) <= cnt v (tvars x))%nat) by exact C.
  destruct (cnt_perm _ _ C') as [N HN]. split.
  - intro v. unfold occurrences. rewrite !tvars_app_eq.
    assert (P : Permutation (flat_map (fun u => tvars (s u)) (tvars x)) (flat_map (fun u => tvars (s u)) (tvars y) ++ flat_map (fun u => tvars (s u)) N)).
    { rewrite <- flat_map_app. now apply Permutation_flat_map. }
    pose proof (perm_cnt _ _ v P) as Q. rewrite cnt_app in Q. unfold cnt in Q. lia.
  - pose proof (wt_app s x) as Wx. pose proof (wt_app s y) as Wy. rewrite !wt_leaves in Wx, Wy.
    rewrite (sumw_perm s _ _ HN), sumw_app in Wx. pose proof (sumw_nonneg s N Hs).
    destruct W as [W|[W L]]; [left; lia|]. destruct (Z.eq_dec (sumw s N) 0) as [E|E]; [right|left; lia].
    split; [lia|]. now apply lex_big_stable.
Qed.
(* answers *)
Lemma kb_answer cl i l : length cl <> 1%nat -> nth_error cl i = Some l -> ans l = true ->
  nth_error (kb_select word is_uri uid cl) i <> Some true.
Proof.
  intros Hl Hi A E. assert (Lt : (i < length cl)%nat) by (apply nth_error_Some; congruence).
  unfold kb_select in E. rewrite (proj2 (Nat.eqb_neq _ _) Hl) in E. rewrite nth_map_seq in E by exact Lt. injection E as E.
  assert (Hm : nth_error (map info cl) i = Some None) by (rewrite nth_error_map, Hi; cbn; unfold info; now rewrite A).
  pose proof (outer_none word is_uri uid (map info cl) 0 (fun _ => true) i) as N. cbn [Nat.add] in N. rewrite N in E; [discriminate|exact Hm].
Qed.
Theorem answers_alone s aa hp cl i l : (2 <= length cl)%nat -> ans l = true -> neg l = false ->
  ~ selected cl (select word is_uri uid hard s aa hp cl) i l.
Proof.
  intros Hl A N [Hi E]. unfold select in E. destruct (Nat.eqb_spec (length cl) 1) as [|Hn]; [lia|].
  destruct (negb aa && kb s); [now apply (kb_answer cl i l Hn Hi A)|].
  destruct (negb aa && hyper s && has_neg cl && negb hp).
  { rewrite nth_error_map, Hi in E. cbn in E. congruence. }
  destruct (negb aa && negb (has_neg cl) && (negpref s || hyper s)); [now apply (kb_answer cl i l Hn Hi A)|].
  destruct (negb aa && negb (has_pos cl) && pospref s); [now apply (kb_answer cl i l Hn Hi A)|].
  revert E. generalize cl at 1 as c0. generalize false as fl. clear Hl Hn. revert i Hi.
  induction cl as [|k ls IH]; intros i Hi fl c0 E; [destruct i; discriminate|]. cbn [mark_all] in E.
  destruct (mark_lit hard s aa hp c0 fl k) as [r f] eqn:Ek. destruct i as [|i].
  - cbn in Hi, E. injection Hi as ->. unfold mark_lit in Ek. rewrite A in Ek. congruence.
  - cbn in Hi, E. exact (IH i Hi f c0 E).
Qed.
End End_.
