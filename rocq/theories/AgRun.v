(** Calls and runs of numeric instantiation. *)
From Coq Require Import List ZArith Bool Lia Permutation.
From Verif Require Import Terms AgModel AgSpec AgBase AgProof AgEnd.
Import ListNotations.
Open Scope Z_scope.

Section Run.
  Variable code : term -> comp.
  Variable numc : cst -> option num.
  Variable answer : term -> bool.
  Variable fo : fops.
  Variable slot_of : key -> nat.
  Variable cf : conf.
  Variable ask : list key -> key -> option (bool * bool).
  Variable on got : bool.
  Notation generate := (generate code numc answer fo slot_of cf ask on got).
  Notation run := (run code numc answer fo slot_of cf ask on got).
  Notation cinv := (cinv slot_of cf ask).
  Notation room := (room cf ask).

  Lemma cinv_set g log gl p : cinv g log -> cinv {| cache := cache g; saturated := saturated g; done := done g; glob := gl; proof := p |} log.
  Proof. intros [A B C D E F G H]. split; auto. Qed.
  Lemma occupied_none n : occupied (repeat None n) = 0%nat.
  Proof. induction n; auto. Qed.

  Notation cands := (cands code numc answer fo).
  Record called (c : call) (g0 : gst) (log : list key) (l : lst) : Prop := {
    k_inv : cinv (lg l) (llog l);
    k_sat : saturated (lg l) = false -> saturated g0 = false;
    k_room : room -> got = true -> saturated g0 = false -> saturated (lg l) = false;
    k_new : exists new, llog l = new ++ log /\ NoDup new /\ Forall (fun k => In k (schedule cf (ptr c) (scan_clause code numc answer fo (atoms c)) (cands c g0))) new /\
      Z.of_nat (length new) <= ltried l /\ 0 <= lkept l <= Z.of_nat (length new) /\
      (mode cf = 0 \/ on = false \/ depth_limit cf <= depth (anc_of c) -> new = []);
    k_tried : ltried l <= Z.max 0 (probe_limit cf);
    k_kept : lkept l <= Z.max 0 (keep_limit cf);
    k_off : mode cf = 0 \/ on = false -> cache (lg l) = cache g0;
    k_all : mode cf <> 0 -> on = true -> depth (anc_of c) < depth_limit cf -> stop cf l = false ->
      forall k, In k (schedule cf (ptr c) (scan_clause code numc answer fo (atoms c)) (cands c g0)) -> In k (llog l) \/ gave_up ask k }.

  Lemma generate_called c g0 log : cinv g0 log -> called c g0 log (generate c g0 log).
  Proof.
    intros I. unfold AgModel.generate. cbn [cache saturated done glob proof].
    pose proof (cinv_set g0 log (glob g0) (proof_in c) I) as I0.
    set (g := {| cache := cache g0; saturated := saturated g0; done := done g0; glob := glob g0; proof := proof_in c |}) in *.
    destruct (Z.eqb_spec (mode cf) 0) as [M|M]; cbn [orb].
    { split; cbn [lg llog ltried lkept]; auto; try lia; try contradiction. exists []. simpl. split; auto. split; [constructor|]. split; [constructor|]. split; [lia|]. split; [lia|auto]. }
    destruct (negb on) eqn:On; cbn [orb].
    { apply negb_true_iff in On. split; cbn [lg llog ltried lkept]; auto; try lia; try congruence. exists []. simpl. split; auto. split; [constructor|]. split; [constructor|]. split; [lia|]. split; [lia|auto]. }
    apply negb_false_iff in On.
    destruct (Z.leb_spec (global_limit cf) (done g0)) as [L|L].
    { split; cbn [lg llog ltried lkept]; auto; try lia.
      - exists []. simpl. split; auto. split; [constructor|]. split; [constructor|]. split; [lia|]. split; [lia|auto].
      - unfold stop. cbn [ltried lkept lg]. intros _ _ _ S. exfalso.
        apply orb_false_elim in S as [S _]. apply orb_false_elim in S as [S _]. apply orb_false_elim in S as [_ S]. cbn [done g] in S. apply Z.leb_gt in S. lia. }
    set (g1 := match cache g0 with None => _ | Some _ => g end).
    assert (I1 : cinv g1 log /\ ready g1 /\ (saturated g1 = false -> saturated g0 = false) /\
                 (got = true -> saturated g0 = false -> saturated g1 = false) /\ glob g1 = glob g0).
    { unfold g1. destruct (cache g0) as [c0|] eqn:Ec.
      - split; [auto|]. split; [right; exists c0; auto|]. split; auto.
      - destruct (saturated g0) eqn:Es; [split; [auto|]; split; [left; auto|]; split; auto|].
        assert (El : log = []) by (eapply i_new; eauto).
        split; [|split; [|split; [auto|split; [|reflexivity]]]].
        + subst log. pose proof (i_done _ _ _ _ _ I) as Hd. pose proof (i_lim _ _ _ _ _ I) as Hl. split; cbn [cache saturated done]; auto.
          * intros c1. destruct got; [|discriminate]. intros X. assert (Y : c1 = repeat None size) by (unfold size; congruence). rewrite Y. apply repeat_length.
          * intros c1 k. destruct got; [|discriminate]. intros X. assert (Y : c1 = repeat None size) by (unfold size; congruence). rewrite Y. intros H. apply repeat_spec in H. discriminate.
          * intros c1 k _ _ [].
          * intros _. constructor.
          * intros _ c1. destruct got; [|discriminate]. intros X. assert (Y : c1 = repeat None size) by (unfold size; congruence). rewrite Y, occupied_none. auto.
        + destruct got; [right; eexists; reflexivity|left; reflexivity].
        + intros -> _. reflexivity. }
    clearbody g1. destruct I1 as (I1&R1&S1&T1&G1).
    destruct (Z.leb_spec (depth_limit cf) (depth (anc_of c))) as [Dp|Dp].
    { split; cbn [lg llog ltried lkept]; auto; try lia.
      - exists []. simpl. split; auto. split; [constructor|]. split; [constructor|]. split; [lia|]. split; [lia|auto].
      - intros [H|H]; congruence. }
    destruct (complete fo _ (glob g1)) as [cs gl] eqn:Ec.
    assert (Ecs : cands c g0 = cs) by (unfold cands; rewrite <- G1, Ec; auto).
    destruct (scan_clause_ok code numc answer fo (atoms c)) as [Gv (Fn&_&_)].
    destruct (complete_spec fo _ _ _ _ Gv Ec) as ((Nd&_)&_).
    set (g2 := {| cache := cache g1; saturated := saturated g1; done := done g1; glob := gl; proof := proof g1 |}).
    set (l0 := {| lg := g2; llog := log; ltried := 0; lkept := 0 |}).
    assert (R2 : ready g2) by (destruct R1 as [R|[c1 R]]; [left; auto|right; exists c1; auto]).
    destruct (attempt_spec slot_of cf ask (schedule cf (ptr c) (scan_clause code numc answer fo (atoms c)) cs) l0 (cinv_set _ _ _ _ I1) R2)
      as [A B C C2 C3 (new&N&Nin&Nnd&Nl&Nk) T K All].
    cbn [lg llog ltried lkept l0 saturated g2] in *.
    split; auto; rewrite ?Ecs; auto.
    - exists new. split; auto. split; [apply Nnd; apply schedule_nodup; auto|]. split; [apply Forall_forall; auto|].
      split; [lia|]. split; [lia|]. intros [H|[H|H]]; [congruence|congruence|lia].
    - intros [H|H]; congruence.
  Qed.

  Lemma run_inv : forall cs g log g' log' ls, cinv g log -> run cs g log = (g', log', ls) ->
    cinv g' log' /\ (saturated g' = false -> saturated g = false) /\ (room -> got = true -> saturated g = false -> saturated g' = false).
  Proof.
    induction cs as [|c cs IH]; intros g log g' log' ls I; cbn [AgModel.run].
    - intros X. injection X as <- <- <-. auto.
    - destruct (generate_called c g log I) as [A B C _ _ _ _ _].
      destruct (run cs _ _) as [[g2 log2] ls2] eqn:E. intros X. injection X as <- <- <-.
      destruct (IH _ _ _ _ _ A E) as (P&Q&R). split; auto.
  Qed.

  Definition wf (g : gst) : Prop := forall c, cache g = Some c -> length c = size.
  Lemma reset_cinv g : wf g -> cinv (reset g) [].
  Proof.
    intros W. assert (X : forall c, cache (reset g) = Some c -> length c = size /\ forall e, In e c -> e = None).
    { unfold reset. cbn [cache]. destruct (cache g) as [c0|] eqn:E; cbn [option_map]; [|discriminate]. intros c H. injection H as <-.
      rewrite map_length. split; auto. intros e He. apply in_map_iff in He as (y&<-&_). auto. }
    split; try (simpl; auto; lia).
    - intros c H. apply X; auto.
    - intros c k H Hk. destruct (X c H) as [_ Y]. specialize (Y _ Hk). discriminate.
    - intros _. constructor.
    - intros _ c H. destruct (X c H) as [_ Y]. unfold occupied. clear H X. induction c as [|e c IH]; auto.
      cbn [filter]. rewrite (Y e) by (simpl; auto). apply IH. intros e' He. apply Y. simpl. auto.
  Qed.
End Run.

Lemma between_wf g : between_runs g -> wf g.
Proof.
  induction 1 as [|code numc answer fo slot_of cf ask on got cs g g' log ls Hb IH E]; [intros c H; discriminate|].
  destruct (run_inv code numc answer fo slot_of cf ask on got cs _ _ _ _ _ (reset_cinv slot_of cf ask g IH) E) as (I&_).
  intros c Hc. eapply i_size; eauto.
Qed.

Lemma schedule_proper code numc answer fo c0 c g k : let cf := configure c0 in
  In k (schedule cf (ptr c) (scan_clause code numc answer fo (atoms c)) (cands code numc answer fo c g)) ->
  proper_probe code answer cf c (cands code numc answer fo c g) k.
Proof.
  intros cf H. apply schedule_in in H as X. destruct X as (vs&ns&->&Hv&Hm&Hl&Hk&Hn).
  destruct (scan_clause_ok code numc answer fo (atoms c)) as [_ (_&_&F)]. rewrite Forall_forall in F.
  destruct (F vs Hv) as (_&_&u&(a&Ha&Hu)&Har&Hvs).
  split; [auto|]. split; [|split; [auto|split; [exists a, u; auto|split; [|auto]]]].
  - destruct Hk as [Hk|[Hk Hk2]]; [left; auto|right; split; auto].
    assert (mode cf <= 2) by (unfold cf, configure; cbn [mode]; unfold clamp; destruct (Z.ltb_spec (mode c0) 0); [lia|]; destruct (Z.ltb_spec 2 (mode c0)); lia). lia.
  - intros Fv. apply (bindable_direct code numc answer fo (atoms c) vs); auto.
    unfold schedule in H. apply in_flat_map in H as (vs'&Hv'&H). apply in_map_iff in H as (t&E&_). injection E as -> ->.
    apply used_fronts_in in Hv' as (_&_&Hb). auto.
Qed.
