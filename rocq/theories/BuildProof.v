(** Building terms: semantics (any interpretation) and variable renaming (syntactic). *)
From Coq Require Import List ZArith Bool Lia Permutation.
From Verif Require Import Terms UnifySpec TermsProof UnifyModel UnifyProof TrailProof SubsumeSpec Semantics SemProof BuildModel.
Import ListNotations.
Open Scope Z_scope.

(** ** State growth *)
Definition bgrows (s s' : bst) : Prop := grows (fun _ => True) (vars s) (vars s').

Lemma bgrows_refl s : bgrows s s. Proof. constructor. Qed.
Lemma bgrows_trans a b c : bgrows a b -> bgrows b c -> bgrows a c.
Proof. unfold bgrows. apply grows_trans. Qed.
Lemma bgrows_ext s s' : bgrows s s' -> extends (bank (vars s)) (bank (vars s')).
Proof. apply grows_extends. Qed.

(** Acyclic, nothing bound among the renamed variables, first-order values. *)
Record bgood (s : bst) : Prop := {
  bg_acyclic : acyclic (bank (vars s));
  bg_unreal : forall i, first_unreal <= i -> bank (vars s) i = None;
  bg_fot : bank_fot (bank (vars s));
  bg_vc : 0 <= vc s }.

Definition bstate (r : bres) : option bst :=
  match r with BOk _ s => Some s | BIllegal s => Some s | BFuel => None end.

Lemma build_var_step bk i s s' : bank (vars s) i = None -> bgood s ->
  bstate (build_var bk i s) = Some s' -> bgrows s s' /\ bgood s'.
Proof.
  intros Hi Hg. unfold build_var. destruct (Z.ltb_spec i first_unreal).
  - destruct (varsinbank <=? vc s); intros E; injection E as <-; [split; [constructor|auto]|].
    destruct Hg as [Ha Hu Hf Hv]. split; [|split]; simpl.
    + unfold bgrows; simpl. apply grows_set; auto. constructor.
    + destruct (exhaustive_exists _ Ha) as [sg Hsg]. apply (acyclic_setvar _ _ _ sg); auto.
      simpl. destruct Hsg as [_ Hsg]. rewrite Hsg by (apply Hu; unfold first_unreal; lia).
      simpl. intros [E|[]]. unfold first_unreal in *; lia.
    + intros j Hj. destruct (Z.eqb_spec j i); [lia|auto].
    + apply bank_fot_setvar; auto.
    + lia.
  - intros E; injection E as <-. split; [constructor|auto].
Qed.

Lemma fot_head c args : (forall a, In a args -> fot a = true) -> forall f, In f (TCst c :: args) -> fot f = true.
Proof. intros H f [<-|Hf]; auto. Qed.

Section Build.
  Variable comp : term -> option term.
  Variable bk : Z.

  Lemma build_step : forall n x s s', bgood s -> bstate (build comp bk n x s) = Some s' ->
    bgrows s s' /\ bgood s'.
  Proof.
    induction n as [|n IH]; intros x s s' Hg; [discriminate|]. cbn [build].
    destruct (deref n (bank (vars s)) x) as [[i|c|fs]|] eqn:Ed; [| | |discriminate].
    - apply deref_ok in Ed as [Hr _]. apply build_var_step; auto.
    - intros E; injection E as <-. split; [constructor|auto].
    - assert (HL : forall fs s, bgood s ->
        (forall ts s1, build_loop (build comp bk n) fs s = BsOk ts s1 -> bgrows s s1 /\ bgood s1) /\
        (forall s1, build_loop (build comp bk n) fs s = BsIllegal s1 -> bgrows s s1 /\ bgood s1)).
      { clear -IH. induction fs as [|f fs IHl]; intros s Hg; cbn [build_loop].
        - split; [|discriminate]. intros ts s1 E; injection E as <- <-. split; [constructor|auto].
        - specialize (IH f s). destruct (build comp bk n f s) as [t s2|s2|]; [| |split; discriminate].
          + destruct (IH s2 Hg eq_refl) as [G1 G2]. specialize (IHl s2 G2).
            destruct (build_loop (build comp bk n) fs s2) as [ts s3|s3|]; [| |split; discriminate];
              split; try discriminate; intros; destruct IHl as [A B].
            * match goal with H : BsOk _ _ = _ |- _ => injection H as <- <- end.
              destruct (A _ _ eq_refl). split; auto. eapply bgrows_trans; eauto.
            * match goal with H : BsIllegal _ = _ |- _ => injection H as <- end.
              destruct (B _ eq_refl). split; auto. eapply bgrows_trans; eauto.
          + destruct (IH s2 Hg eq_refl). split; [discriminate|]. intros s1 E; injection E as <-. auto. }
      specialize (HL fs s Hg). destruct (build_loop (build comp bk n) fs s) as [ts s1|s1|]; [| |discriminate].
      + unfold computed. destruct HL as [A _]. destruct (A _ _ eq_refl).
        destruct (comp (TRec ts)); simpl; intros E; injection E as <-; auto.
      + destruct HL as [_ B]. intros E; injection E as <-. auto.
  Qed.

  Lemma build_ok n x s r s' : bgood s -> build comp bk n x s = BOk r s' -> bgrows s s' /\ bgood s'.
  Proof. intros Hg E. apply (build_step n x s s' Hg). rewrite E. reflexivity. Qed.

  Lemma build_loop_head n c args s ts s' :
    build_loop (build comp bk n) (TCst c :: args) s = BsOk ts s' -> exists ts', ts = TCst c :: ts'.
  Proof.
    destruct n as [|n]; [discriminate|].
    assert (Hc : build comp bk (S n) (TCst c) s = BOk (TCst c) s) by reflexivity. revert Hc.
    generalize (build comp bk (S n)) as b. intros b Hb. cbn [build_loop]. rewrite Hb.
    destruct (build_loop b args s); try discriminate.
    intros E; injection E as <- <-. eauto.
  Qed.

  (** ** Meaning *)
  Variable eqc : cst.
  Variable M : interp.
  Hypothesis Hcomp : agrees_with eqc comp M.

  (** The renamed variables take the values the result's variables have. *)
  Definition tied (w v : Z -> dom M) : Prop :=
    forall i, first_unreal <= i -> w i = v (bk * varsinbank + (i - first_unreal)).

  Lemma respects_mono w b b' : extends b b' -> respects M w b' -> respects M w b.
  Proof. intros He Hr i t E. apply Hr. auto. Qed.

  Lemma build_var_eval i s r s' w v : bank (vars s) i = None ->
    build_var bk i s = BOk r s' -> 0 <= vc s -> respects M w (bank (vars s')) -> tied w v -> eval M v r = w i.
  Proof.
    unfold build_var. intros Hi. destruct (Z.ltb_spec i first_unreal).
    - destruct (varsinbank <=? vc s); [discriminate|]. intros E Hv Hr Ht. injection E as <- <-. simpl in Hr.
      rewrite (Hr i (TVar (vc s + first_unreal))) by (simpl; rewrite Z.eqb_refl; auto). simpl.
      rewrite Ht by (unfold first_unreal; lia). f_equal. lia.
    - intros E Hv Hr Ht. injection E as <- <-. simpl. rewrite Ht by lia. reflexivity.
  Qed.

  Lemma computed_eval ts s r s' v : computed comp ts s = BOk r s' ->
    s' = s /\ eval M v r = eval M v (TRec ts) /\ (holds eqc M v r <-> holds eqc M v (TRec ts)).
  Proof.
    unfold computed. destruct (comp (TRec ts)) as [t|] eqn:E; [|discriminate].
    intros H; injection H as <- <-. split; [auto|]. apply (Hcomp ts t E).
  Qed.

  Definition evals (n : nat) := forall x s r s' w v, bgood s -> fot x = true ->
    build comp bk n x s = BOk r s' -> respects M w (bank (vars s')) -> tied w v -> eval M v r = eval M w x.

  Lemma build_loop_eval n : evals n -> forall fs s ts s' w v, bgood s -> (forall f, In f fs -> fot f = true) ->
    build_loop (build comp bk n) fs s = BsOk ts s' -> respects M w (bank (vars s')) -> tied w v ->
    map (eval M v) ts = map (eval M w) fs.
  Proof.
    intros IH. assert (H : forall fs s ts s' w v, bgood s -> (forall f, In f fs -> fot f = true) ->
      build_loop (build comp bk n) fs s = BsOk ts s' -> respects M w (bank (vars s')) -> tied w v ->
      map (eval M v) ts = map (eval M w) fs /\ bgrows s s').
    { induction fs as [|f fs IHl]; intros s ts s' w v Hg Hf; cbn [build_loop].
      - intros E; injection E as <- <-. split; auto. constructor.
      - destruct (build comp bk n f s) as [t s1|s1|] eqn:E1; try discriminate.
        destruct (build_loop (build comp bk n) fs s1) as [ts' s2|s2|] eqn:E2; try discriminate.
        intros E; injection E as <- <-. intros Hr Ht.
        destruct (build_ok _ _ _ _ _ Hg E1) as [G1 G2].
        destruct (IHl s1 ts' s2 w v G2 ltac:(intros; apply Hf; simpl; auto) E2 Hr Ht) as [A B].
        split; [|eapply bgrows_trans; eauto]. simpl. f_equal; auto.
        apply (IH f s t s1 w v); auto; [apply Hf; simpl; auto|].
        eapply respects_mono; [apply bgrows_ext; exact B|auto]. }
    intros. eapply H; eauto.
  Qed.

  Lemma build_eval : forall n, evals n.
  Proof.
    induction n as [|n IH]; intros x s r s' w v Hg Hx; [discriminate|]. cbn [build].
    destruct (deref n (bank (vars s)) x) as [x'|] eqn:Ed; [|discriminate]. intros E Hr Ht.
    assert (Hrs : respects M w (bank (vars s))).
    { eapply respects_mono; [|exact Hr]. apply bgrows_ext.
      apply (build_ok (S n) x s r s' Hg). cbn [build]. rewrite Ed. exact E. }
    rewrite <- (respects_deref M w _ _ _ _ Hrs Ed).
    pose proof (bank_fot_deref _ _ _ _ (bg_fot _ Hg) Hx Ed) as Hx'.
    apply deref_ok in Ed as [Hres _].
    destruct x' as [i|c|fs].
    - eapply build_var_eval; eauto. apply bg_vc; auto.
    - injection E as <- <-. reflexivity.
    - destruct (build_loop (build comp bk n) fs s) as [ts s1|s1|] eqn:E1; try discriminate.
      apply (computed_eval _ _ _ _ v) in E as (->&Ev&_). rewrite Ev.
      apply fot_rec in Hx' as (c&args&->&Ha).
      assert (Hm := build_loop_eval n IH (TCst c :: args) _ _ _ w v Hg (fot_head c args Ha) E1 Hr Ht).
      apply build_loop_head in E1 as (ts'&->). cbn [map] in Hm. simpl. f_equal. injection Hm. auto.
  Qed.

  (** Atoms. *)
  Lemma build_holds n a s r s' w v : bgood s -> foa a = true ->
    build comp bk n a s = BOk r s' -> respects M w (bank (vars s')) -> tied w v ->
    (holds eqc M v r <-> holds eqc M w a).
  Proof.
    intros Hg Ha. destruct n as [|n]; [discriminate|].
    destruct a as [i|c|fs]; [discriminate| |]; cbn [build deref].
    - intros E; injection E as <- <-. intros; simpl; tauto.
    - destruct (build_loop (build comp bk n) fs s) as [ts s1|s1|] eqn:E1; try discriminate.
      intros E Hr Ht. apply (computed_eval _ _ _ _ v) in E as (->&_&Eh). rewrite Eh.
      unfold foa in Ha. apply fot_rec in Ha as (c&args&->&Hargs).
      assert (Hm := build_loop_eval n (build_eval n) (TCst c :: args) _ _ _ w v Hg (fot_head c args Hargs) E1 Hr Ht).
      apply build_loop_head in E1 as (ts'&->). apply holds_cong. cbn [map] in Hm. injection Hm. auto.
  Qed.

  (** A result is never a variable when an atom was built, provided evaluation gives none. *)

  (** ** Replacement *)
  (** Argument positions in the order they are numbered: the term itself, then the
      positions of its arguments from left to right; function symbols have none. *)
  Fixpoint preorder (t : term) : list term :=
    t :: match t with
         | TRec (_ :: args) => flat_map preorder args
         | _ => []
         end.

  Lemma preorder_len t : (1 <= length (preorder t))%nat.
  Proof. destruct t; simpl; lia. Qed.

  Definition fits (w : Z -> dom M) (l : list term) (k : Z) (rt : term) : Prop :=
    0 <= k -> forall sub, nth_error l (Z.to_nat k) = Some sub -> eval M w sub = eval M w rt.

  Lemma fits_app w l1 l2 k rt : fits w (l1 ++ l2) k rt ->
    fits w l1 k rt /\ fits w l2 (k - Z.of_nat (length l1)) rt.
  Proof.
    intros H. split; intros Hk sub E.
    - apply H; auto. rewrite nth_error_app1; auto. apply nth_error_Some. congruence.
    - apply H; [lia|]. rewrite nth_error_app2 by lia. rewrite <- E. f_equal. lia.
  Qed.

  Definition rstate (r : rres) : option bst :=
    match r with RpOk _ _ s => Some s | RpIllegal s => Some s | RpFuel => None end.

  Definition revals (n : nat) := forall rpos rt x path s r p s' w v, bgood s -> fot x = true -> fot rt = true ->
    breplace comp bk n rpos rt x path s = RpOk r p s' -> path <= rpos ->
    bgrows s s' /\ bgood s' /\
    (if path + Z.of_nat (length (preorder x)) - 1 <? rpos
     then p = path + Z.of_nat (length (preorder x)) - 1 else rpos <= p) /\
    (respects M w (bank (vars s')) -> tied w v -> fits w (preorder x) (rpos - path) rt ->
     eval M v r = eval M w x).

  Lemma replace_loop_inc n rpos rt : revals n -> fot rt = true ->
    forall xs path s ts p s' w v, bgood s -> (forall x, In x xs -> fot x = true) ->
    replace_loop (breplace comp bk n rpos rt) (build comp bk n) rpos true xs path s = RsOk ts p s' ->
    bgrows s s' /\ bgood s' /\
    (if path + Z.of_nat (length (flat_map preorder xs)) <? rpos
     then p = path + Z.of_nat (length (flat_map preorder xs)) else rpos <= p \/ (path = p /\ xs = [])) /\
    (respects M w (bank (vars s')) -> tied w v -> fits w (flat_map preorder xs) (rpos - path - 1) rt ->
     map (eval M v) ts = map (eval M w) xs).
  Proof.
    intros IH Hrt. induction xs as [|x xs IHl]; intros path s ts p s' w v Hg Hx; cbn [replace_loop].
    - intros E; injection E as <- <- <-. split; [constructor|]. split; auto. split; [|auto].
      simpl. destruct (Z.ltb_spec (path + 0) rpos); [lia|auto].
    - assert (Hstep : forall t p1 s1,
        (if path + 1 <=? rpos then breplace comp bk n rpos rt x (path + 1) s
         else of_bres (path + 1) (build comp bk n x s)) = RpOk t p1 s1 ->
        bgrows s s1 /\ bgood s1 /\
        (if path + Z.of_nat (length (preorder x)) <? rpos
         then p1 = path + Z.of_nat (length (preorder x)) else rpos <= p1) /\
        (respects M w (bank (vars s1)) -> tied w v -> fits w (preorder x) (rpos - path - 1) rt ->
         eval M v t = eval M w x)).
      { intros t p1 s1. destruct (Z.leb_spec (path + 1) rpos) as [Hle|Hgt].
        - intros E. destruct (IH rpos rt x (path+1) s t p1 s1 w v Hg (Hx x (or_introl eq_refl)) Hrt E Hle) as (A&B&C&D).
          split; auto. split; auto. split.
          + replace (path + 1 + Z.of_nat (length (preorder x)) - 1) with (path + Z.of_nat (length (preorder x))) in C by lia. exact C.
          + intros R T F. apply D; auto. replace (rpos - (path + 1)) with (rpos - path - 1) by lia. auto.
        - destruct (build comp bk n x s) as [t0 s0|s0|] eqn:E1; try discriminate. simpl.
          intros E; injection E as <- <- <-. destruct (build_ok _ _ _ _ _ Hg E1) as [A B].
          split; auto. split; auto. split.
          + pose proof (preorder_len x). destruct (Z.ltb_spec (path + Z.of_nat (length (preorder x))) rpos); lia.
          + intros R T F. apply (build_eval n x s t0 s0 w v); auto. apply Hx; simpl; auto. }
      cbn [negb] in *.
      destruct (if path + 1 <=? rpos then breplace comp bk n rpos rt x (path + 1) s
         else of_bres (path + 1) (build comp bk n x s)) as [t p1 s1|s1|] eqn:E1; try discriminate.
      destruct (Hstep t p1 s1 eq_refl) as (A&B&C&D).
      destruct (replace_loop (breplace comp bk n rpos rt) (build comp bk n) rpos true xs p1 s1) as [ts' p2 s2|s2|] eqn:E2; try discriminate.
      intros E; injection E as <- <- <-.
      destruct (IHl p1 s1 ts' p2 s2 w v B ltac:(intros; apply Hx; simpl; auto) E2) as (A2&B2&C2&D2).
      split; [eapply bgrows_trans; eauto|]. split; auto.
      cbn [flat_map]. rewrite app_length, Nat2Z.inj_add.
      split.
      + destruct (Z.ltb_spec (path + Z.of_nat (length (preorder x))) rpos).
        * subst p1.
          replace (path + (Z.of_nat (length (preorder x)) + Z.of_nat (length (flat_map preorder xs))))
            with (path + Z.of_nat (length (preorder x)) + Z.of_nat (length (flat_map preorder xs))) by lia.
          match goal with |- if ?b then _ else _ => destruct b eqn:Eb end; [exact C2|].
          left. destruct C2 as [C2|[C2 ->]]; [exact C2|]. simpl in Eb. lia.
        * destruct (Z.ltb_spec (path + (Z.of_nat (length (preorder x)) + Z.of_nat (length (flat_map preorder xs)))) rpos); [lia|].
          left. destruct (p1 + Z.of_nat (length (flat_map preorder xs)) <? rpos) eqn:Eb; [lia|].
          destruct C2 as [C2|[C2 ->]]; lia.
      + intros R T F. simpl. apply fits_app in F as [F1 F2]. f_equal.
        * apply D; auto. eapply respects_mono; [apply bgrows_ext; exact A2|auto].
        * apply D2; auto.
          destruct (Z.ltb_spec (path + Z.of_nat (length (preorder x))) rpos).
          -- subst p1. replace (rpos - (path + Z.of_nat (length (preorder x))) - 1) with
               (rpos - path - 1 - Z.of_nat (length (preorder x))) by lia. auto.
          -- intros Hk. lia.
  Qed.

  Lemma replace_loop_noinc n rpos rt :
    forall xs path s ts p s' w v, bgood s -> (forall x, In x xs -> fot x = true) ->
    replace_loop (breplace comp bk n rpos rt) (build comp bk n) rpos false xs path s = RsOk ts p s' ->
    bgrows s s' /\ bgood s' /\ p = path /\
    (respects M w (bank (vars s')) -> tied w v -> map (eval M v) ts = map (eval M w) xs).
  Proof.
    induction xs as [|x xs IHl]; intros path s ts p s' w v Hg Hx; cbn [replace_loop].
    - intros E; injection E as <- <- <-. split; [constructor|]. split; auto.
    - replace (if path <=? rpos then of_bres path (build comp bk n x s) else of_bres path (build comp bk n x s))
        with (of_bres path (build comp bk n x s)) by (destruct (path <=? rpos); auto).
      destruct (build comp bk n x s) as [t s1|s1|] eqn:E1; try discriminate. cbn [of_bres].
      destruct (build_ok _ _ _ _ _ Hg E1) as [A B].
      destruct (replace_loop (breplace comp bk n rpos rt) (build comp bk n) rpos false xs path s1) as [ts' p2 s2|s2|] eqn:E2; try discriminate.
      intros E; injection E as <- <- <-.
      destruct (IHl path s1 ts' p2 s2 w v B ltac:(intros; apply Hx; simpl; auto) E2) as (A2&B2&C2&D2).
      split; [eapply bgrows_trans; eauto|]. split; auto. split; auto.
      intros R T. simpl. f_equal; auto. apply (build_eval n x s t s1 w v); auto; [apply Hx; simpl; auto|].
      eapply respects_mono; [apply bgrows_ext; exact A2|auto].
  Qed.

  Lemma of_bres_inv p r t q s : of_bres p r = RpOk t q s -> r = BOk t s /\ q = p.
  Proof. destruct r; simpl; intros E; inversion E; subst; auto. Qed.

  Lemma replace_eval : forall n, revals n.
  Proof.
    induction n as [|n IH]; intros rpos rt x path s r p s' w v Hg Hx Hrt; [discriminate|]. cbn [breplace].
    destruct (Z.eqb_spec path rpos) as [->|Hne].
    - intros E _. apply of_bres_inv in E as [E ->]. destruct (build_ok _ _ _ _ _ Hg E) as [A B].
      split; auto. split; auto. split.
      + pose proof (preorder_len x). destruct (Z.ltb_spec (rpos + Z.of_nat (length (preorder x)) - 1) rpos); lia.
      + intros R T F. rewrite (build_eval _ _ _ _ _ _ _ Hg Hrt E R T). symmetry.
        apply F; [lia|]. replace (rpos - rpos) with 0 by lia. destruct x; reflexivity.
    - destruct (deref n (bank (vars s)) x) as [x'|] eqn:Ed; [|discriminate]. intros E Hle.
      pose proof (bank_fot_deref _ _ _ _ (bg_fot _ Hg) Hx Ed) as Hx'.
      assert (Hnr : is_rec x = false -> length (preorder x) = 1%nat) by (destruct x; simpl; auto; discriminate).
      assert (Hsemi : bgrows s s' -> respects M w (bank (vars s')) -> eval M w x' = eval M w x).
      { intros G R. eapply respects_deref; [|exact Ed]. eapply respects_mono; [apply bgrows_ext; exact G|auto]. }
      assert (Hd := Ed). apply deref_ok in Hd as [Hres _].
      destruct x' as [i|c|fs].
      + apply of_bres_inv in E as [E ->].
        destruct (build_var_step bk i s s' Hres Hg) as [A B]; [rewrite E; auto|].
        assert (is_rec x = false) by (destruct x; auto; discriminate).
        rewrite Hnr by auto. split; auto. split; auto. split.
        * destruct (Z.ltb_spec (path + Z.of_nat 1 - 1) rpos); lia.
        * intros R T F. rewrite <- Hsemi by auto. eapply build_var_eval; eauto. apply bg_vc; auto.
      + injection E as <- <- <-.
        assert (is_rec x = false) by (destruct x; auto; discriminate).
        rewrite Hnr by auto. split; [constructor|]. split; auto. split.
        * destruct (Z.ltb_spec (path + Z.of_nat 1 - 1) rpos); lia.
        * intros R T F. rewrite <- Hsemi; auto. constructor.
      + apply fot_rec in Hx' as (c&args&->&Ha).
        destruct (replace_loop (breplace comp bk n rpos rt) (build comp bk n) rpos (negb (is_var x)) args path s)
          as [ts q s1|s1|] eqn:E1; try discriminate.
        apply of_bres_inv in E as [E ->].
        apply (computed_eval _ _ _ _ v) in E as (->&Ev&_).
        destruct (is_var x) eqn:Evar; cbn [negb] in E1.
        * destruct (replace_loop_noinc n rpos rt args path s ts q s1 w v Hg Ha E1) as (A&B&->&D).
          assert (is_rec x = false) by (destruct x; auto; discriminate).
          rewrite Hnr by auto. split; auto. split; auto. split.
          -- destruct (Z.ltb_spec (path + Z.of_nat 1 - 1) rpos); lia.
          -- intros R T F. rewrite <- Hsemi by auto. rewrite Ev. simpl. rewrite D; auto.
        * assert (x = TRec (TCst c :: args)) as ->.
          { destruct x; simpl in Ed; try discriminate; congruence. }
          destruct (replace_loop_inc n rpos rt IH Hrt args path s ts q s1 w v Hg Ha E1) as (A&B&C&D).
          split; auto. split; auto.
          cbn [preorder length].
          replace (path + Z.of_nat (S (length (flat_map preorder args))) - 1)
            with (path + Z.of_nat (length (flat_map preorder args))) by lia.
          split.
          -- destruct (Z.ltb_spec (path + Z.of_nat (length (flat_map preorder args))) rpos); auto.
             destruct C as [|[-> ->]]; auto. simpl in *. lia.
          -- intros R T F. rewrite Ev. simpl. rewrite D; auto.
             intros Hk sub Hs. apply F; [lia|]. simpl.
             replace (Z.to_nat (rpos - path)) with (S (Z.to_nat (rpos - path - 1))) by lia. exact Hs.
  Qed.

  (** Atoms: replacement strictly inside. *)
  Lemma replace_holds n rpos rt a s r p s' w v : bgood s -> foa a = true -> fot rt = true ->
    breplace comp bk n rpos rt a 0 s = RpOk r p s' -> 0 < rpos ->
    bgrows s s' /\ bgood s' /\
    (respects M w (bank (vars s')) -> tied w v -> fits w (preorder a) rpos rt ->
     (holds eqc M v r <-> holds eqc M w a)).
  Proof.
    intros Hg Ha Hrt E Hp.
    destruct (replace_eval n rpos rt a 0 s r p s' w v Hg ltac:(destruct a; [discriminate| |]; auto) Hrt E ltac:(lia)) as (A&B&_&_).
    split; auto. split; auto.
    destruct n as [|n]; [discriminate|]. cbn [breplace] in E.
    destruct (Z.eqb_spec 0 rpos); [lia|].
    destruct a as [i|c|fs]; [discriminate| |]; cbn [deref] in E.
    - injection E as <- <- <-. intros; simpl; tauto.
    - unfold foa in Ha. apply fot_rec in Ha as (c&args&->&Hargs). cbn [is_var negb] in E.
      destruct (replace_loop (breplace comp bk n rpos rt) (build comp bk n) rpos true args 0 s)
        as [ts q s1|s1|] eqn:E1; try discriminate.
      apply of_bres_inv in E as [E ->]. apply (computed_eval _ _ _ _ v) in E as (->&_&Eh).
      intros R T F. rewrite Eh.
      destruct (replace_loop_inc n rpos rt (replace_eval n) Hrt args 0 s ts q s1 w v Hg Hargs E1) as (_&_&_&D).
      apply holds_cong. apply D; auto.
      intros Hk sub Hs. apply F; [lia|]. simpl.
      replace (Z.to_nat rpos) with (S (Z.to_nat (rpos - 0 - 1))) by lia. exact Hs.
  Qed.
End Build.
