(** Rewriting ends. *)
From Coq Require Import List ZArith Bool Lia.
From Verif Require Import Terms UnifySpec TermsProof UnifyModel UnifyProof MatchModel MatchProof TrailProof RewriteModel RewriteSpec RewriteProof
  OrdModel OrdSpec OrdProof OrdThm OrdEnd NormModel NormSpec NormProof.
Import ListNotations.
Open Scope Z_scope.

Lemma headed_dec t : headed t \/ ~ headed t.
Proof.
  induction t as [i|c|fs IH] using term_ind'; [left; exact I|left; exact I|].
  assert (A : Forall headed fs \/ ~ Forall headed fs).
  { clear - IH. induction fs as [|f fs IHf]; [left; constructor|]. inversion IH; subst. destruct IHf as [F|F]; [assumption| |right; intros X; inversion X; contradiction].
    destruct H1 as [G|G]; [left; constructor; assumption|right; intros X; inversion X; contradiction]. }
  destruct fs as [|[i|c|gs] r]; try (right; intros X; apply headed_rec in X; destruct X as [(c0&r0&E) _]; discriminate).
  destruct A as [A|A]; [left; apply headed_rec; eauto|right; intros X; apply headed_rec in X; tauto].
Qed.


Lemma ev_list (P : term -> nat -> Prop) (Q : term -> Prop) : (forall y, Q y \/ ~ Q y) -> forall U, (forall y, In y U -> Q y -> ev (P y)) -> ev (fun n => forall y, In y U -> Q y -> P y n).
Proof.
  intros D. induction U as [|y U IH]; intros H; [exists O; intros n _ y []|].
  assert (I1 : ev (fun n => forall z, In z U -> Q z -> P z n)) by (apply IH; intros z Z; apply H; right; exact Z).
  destruct (D y) as [Y|Y].
  - apply (ev_imp _ _ (ev_and _ _ (H y (or_introl eq_refl) Y) I1)). intros n [A B] z [<-|Z] q; auto.
  - apply (ev_imp _ _ I1). intros n B z [<-|Z] q; [contradiction|auto].
Qed.

Section E.
  Variable word : cst -> Z.
  Notation kbo := (kbo word).
  Variable C : list cst.
  Definition good (t : term) : Prop := headed t /\ incl (tcsts t) C.
  Definition le (x t : term) : Prop := t = x \/ kbo x t.
  Lemma good_dec t : good t \/ ~ good t.
  Proof.
    unfold good. destruct (headed_dec t) as [H|H]; [|tauto]. assert (D : {Forall (fun c => In c C) (tcsts t)} + {~ Forall (fun c => In c C) (tcsts t)}) by (apply Forall_dec; intros c; apply in_dec, cst_eq_dec).
    destruct D as [D|D]; [left; split; [exact H|]; intros c I; exact (proj1 (Forall_forall _ _) D c I)|right; intros [_ X]; apply D, Forall_forall; exact X].
  Qed.
  Lemma le_refl x : le x x. Proof. left. reflexivity. Qed.
  Lemma le_trans x y z : le x y -> le y z -> le x z.
  Proof. intros [->|A] [->|B]; [left; reflexivity|right; exact B|right; exact A|right; eapply kbo_trans; eauto]. Qed.
  Lemma kbo_le x y z : kbo x y -> le y z -> kbo x z.
  Proof. intros A [->|B]; [exact A|eapply kbo_trans; eauto]. Qed.
  Lemma le_kbo x y z : le x y -> kbo y z -> kbo x z.
  Proof. intros [->|A] B; [exact B|eapply kbo_trans; eauto]. Qed.
  Lemma le_vars x t : le x t -> incl (tvars t) (tvars x).
  Proof. intros [->|[H _]] v V; [exact V|]. apply cnt_in. apply cnt_in in V. specialize (H v). lia. Qed.
  Lemma good_field fs f : good (TRec fs) -> In f fs -> good f.
  Proof.
    intros [H I] F. apply headed_rec in H. destruct H as [_ H]. rewrite Forall_forall in H. split; [auto|]. intros c X. apply I. cbn [tcsts]. apply in_flat_map. eauto.
  Qed.
  Lemma good_inside t u : inside_of t u -> good u -> good t.
  Proof. induction 1 as [fs I|fs f I H IH]; intros G; [eapply good_field; eauto|]. apply IH. eapply good_field; eauto. Qed.
  Lemma le_cst c t : headed t -> le (TCst c) t -> exists d, t = TCst d.
  Proof.
    intros H [->|K]; [eauto|]. destruct t as [i|d|fs]; [|eauto|].
    - exfalso. destruct K as [K _]. specialize (K i). cbn in K. destruct (Z.eq_dec i i); [lia|contradiction].
    - exfalso. destruct K as [_ [K|[_ K]]]; [change (wt (TCst c)) with 10 in K; pose proof (wt_pos _ H); lia|cbn in K; discriminate].
  Qed.
  Lemma kbo_rec_cst fs c : headed (TRec fs) -> kbo (TRec fs) (TCst c).
  Proof.
    intros H. pose proof (wt_pos _ H). split; [intro; cbn; lia|]. change (wt (TCst c)) with 10. destruct (Z.eq_dec 10 (wt (TRec fs))); [right; split; [assumption|reflexivity]|left; lia].
  Qed.
  Lemma le_fields_app p xs ts : Forall2 le xs ts -> le (TRec (p ++ xs)) (TRec (p ++ ts)).
  Proof.
    intros F. revert p. induction F as [|x t xs ts L F IH]; intros p; [left; reflexivity|].
    apply (le_trans _ (TRec (p ++ t :: xs))).
    - destruct L as [->|L]; [left; reflexivity|right; apply kbo_ctx, L].
    - specialize (IH (p ++ [t])). rewrite <- !app_assoc in IH. exact IH.
  Qed.
  Lemma good_fields xs ts : good (TRec xs) -> Forall2 le xs ts -> Forall good ts -> good (TRec ts) /\ le (TRec xs) (TRec ts).
  Proof.
    intros [H I] F G. split; [|apply (le_fields_app [] xs ts F)]. apply headed_rec in H. destruct H as [(c&r&->) H]. inversion F as [|a t q ts' L F' E1 E2]; subst. split.
    - apply headed_rec. split; [|eapply Forall_impl; [|exact G]; intros y [Y _]; exact Y]. inversion G as [|? ? [G1 _] _]; subst. destruct (le_cst _ _ G1 L) as (d&->). eauto.
    - intros d D. cbn [tcsts] in D. apply in_flat_map in D. destruct D as (f&F1&D). rewrite Forall_forall in G. apply (proj2 (G f F1)). exact D.
  Qed.
  (** Everything below a good term is in a finite list *)
  Definition below (x : term) : list term := enum C (tvars x) (Z.to_nat (wt x)).
  Lemma below_in x y : kbo x y -> good y -> In y (below x).
  Proof.
    intros [K W] [H I]. apply enum_in; [|intros v V; apply cnt_in; apply cnt_in in V; specialize (K v); lia|exact I]. pose proof (size_wt _ H). lia.
  Qed.
  Lemma kbo_acc : forall x, good x -> Acc (fun b a => kbo a b /\ good b) x.
  Proof.
    intros x0 G0. set (U := x0 :: below x0).
    assert (INV : forall y, le x0 y -> good y -> In y U) by (intros y [->|L] G; [left; reflexivity|right; apply below_in; assumption]).
    set (mu := fun t => length (filter (fun y => if kbo_dec word t y then true else false) U)).
    assert (Dec : forall a b, kbo a b -> In b U -> (mu b < mu a)%nat).
    { intros a b K IU. unfold mu. clearbody U. clear INV mu G0.
      assert (Sub : forall l, (length (filter (fun y => if kbo_dec word b y then true else false) l) <= length (filter (fun y => if kbo_dec word a y then true else false) l))%nat /\
        (In b l -> (length (filter (fun y => if kbo_dec word b y then true else false) l) < length (filter (fun y => if kbo_dec word a y then true else false) l))%nat)).
      { induction l as [|y l [I1 I2]]; [split; [cbn; lia|intros []]|]. cbn [filter].
        destruct (kbo_dec word b y) as [A|A], (kbo_dec word a y) as [B|B]; cbn [length].
        - split; [lia|]. intros [E|H]; [subst y; destruct (kbo_irrefl _ _ A)|specialize (I2 H); lia].
        - exfalso. apply B. exact (kbo_trans _ _ _ _ K A).
        - split; [lia|]. intros _. lia.
        - split; [lia|]. intros [E|H]; [subst y; destruct (B K)|specialize (I2 H); lia]. }
      apply (proj2 (Sub U) IU). }
    assert (A : forall k y, (mu y < k)%nat -> le x0 y -> good y -> Acc (fun b a => kbo a b /\ good b) y).
    { induction k as [|k IH]; intros y K L G; [lia|]. constructor. intros z [Z GZ]. assert (LZ : le x0 z) by (right; eapply le_kbo; eauto).
      apply IH; [|exact LZ|exact GZ]. pose proof (Dec y z Z (INV z LZ GZ)). lia. }
    apply (A (S (mu x0)) x0); [lia|apply le_refl|exact G0].
  Qed.
End E.
