(** Building applies the bindings and renames the remaining variables injectively. *)
From Coq Require Import List ZArith Bool Lia.
From Verif Require Import Terms UnifySpec TermsProof UnifyModel UnifyProof TrailProof RenameSpec BuildModel.
Import ListNotations.
Open Scope Z_scope.

Definition real (t : term) : Prop := forall i, In i (tvars t) -> i < first_unreal.

Section Rename.
  Variable comp : term -> option term.
  Variable bk : Z.
  Variable b0 : Z -> option term.           (* the bindings at the start *)
  Variable sg : subst.                      (* ... applied exhaustively *)
  Hypothesis Hac : acyclic b0.
  Hypothesis Hsg : exhaustive b0 sg.
  Hypothesis Hun : forall i, first_unreal <= i -> b0 i = None.
  Hypothesis Hreal : forall i t, b0 i = Some t -> real t.

  (** Variable [i] was renamed to the [k]-th new variable. *)
  Definition renamed (s : bst) (i k : Z) : Prop :=
    b0 i = None /\ i < first_unreal /\ 0 <= k < vc s /\ bank (vars s) i = Some (TVar (k + first_unreal)).

  Record rinv (s : bst) : Prop := {
    ri_cases : forall i, bank (vars s) i = b0 i \/ exists k, renamed s i k;
    ri_inj : forall i j k, renamed s i k -> renamed s j k -> i = j;
    ri_vc : 0 <= vc s <= varsinbank }.

  Definition rgrows (s s' : bst) : Prop :=
    (forall i k, renamed s i k -> renamed s' i k) /\ grows (fun _ => True) (vars s) (vars s').

  Lemma rgrows_trans a b c : rgrows a b -> rgrows b c -> rgrows a c.
  Proof. intros [H1 H2] [H3 H4]. split; auto. eapply grows_trans; eauto. Qed.

  (** What dereferencing means while renaming is under way. *)
  Definition seen (s : bst) (x x' : term) : Prop :=
    match x' with
    | TVar i => if i <? first_unreal then b0 i = None /\ bank (vars s) i = None /\ app sg x = TVar i
                else exists j k, i = k + first_unreal /\ renamed s j k /\ app sg x = TVar j
    | _ => app sg x = app sg x'
    end.

  Lemma varval_seen s : rinv s -> forall n i x', i < first_unreal ->
    varval n (bank (vars s)) i = Some x' -> seen s (TVar i) x' /\ (is_rec x' = true -> real x').
  Proof.
    intros Hi. induction n as [|n IH]; intros i x' Hlt; [discriminate|]. cbn [varval].
    destruct (ri_cases s Hi i) as [E|(k&Hk)].
    - rewrite E. destruct (b0 i) as [t|] eqn:E0.
      + assert (Eq : app sg (TVar i) = app sg t) by (simpl; apply Hsg; auto).
        destruct t as [j|c|fs].
        * intros H. apply IH in H; [|eapply Hreal; [exact E0|simpl; auto]].
          destruct H as [H1 H2]. split; auto. unfold seen in *. rewrite Eq. exact H1.
        * intros H; injection H as <-. split; [exact Eq|discriminate].
        * intros H; injection H as <-. split; [exact Eq|]. intros _. eapply Hreal; eauto.
      + intros H; injection H as <-. split; [|discriminate]. simpl.
        destruct (Z.ltb_spec i first_unreal); [|lia]. split; auto. split; auto. apply Hsg; auto.
    - pose proof Hk as (K1&K2&K3&K4). rewrite K4. destruct n as [|n]; [discriminate|].
      cbn [varval].
      assert (E : bank (vars s) (k + first_unreal) = None).
      { destruct (ri_cases s Hi (k + first_unreal)) as [E|(k2&Hk2)].
        - rewrite E. apply Hun. lia.
        - destruct Hk2 as (_&Hk2&_). lia. }
      rewrite E. intros H; injection H as <-. split; [|discriminate]. simpl.
      destruct (Z.ltb_spec (k + first_unreal) first_unreal); [lia|].
      exists i, k. split; auto. split; auto. apply Hsg; auto.
  Qed.

  Lemma deref_seen s n x x' : rinv s -> real x -> deref n (bank (vars s)) x = Some x' ->
    seen s x x' /\ (is_rec x' = true -> real x').
  Proof.
    intros Hi Hr. destruct x as [i|c|fs]; simpl.
    - apply varval_seen; auto. apply Hr; simpl; auto.
    - intros H; injection H as <-. split; [reflexivity|discriminate].
    - intros H; injection H as <-. split; [reflexivity|auto].
  Qed.

  (** A renaming that agrees with the table. *)
  Definition fits_table (s : bst) (r : Z -> Z) : Prop :=
    forall i k, renamed s i k -> r i = bk * varsinbank + k.

  Lemma build_var_renames i s r s' : rinv s -> i < first_unreal -> b0 i = None -> bank (vars s) i = None ->
    build_var bk i s = BOk r s' ->
    rinv s' /\ rgrows s s' /\ exists k, renamed s' i k /\ r = TVar (bk * varsinbank + k).
  Proof.
    intros Hi Hlt E0 Eb. unfold build_var. destruct (Z.ltb_spec i first_unreal); [|lia].
    destruct (Z.leb_spec varsinbank (vc s)); [discriminate|]. intros E; injection E as <- <-.
    destruct Hi as [Hc Hinj Hv].
    set (s' := {| vars := setvar i (TVar (vc s + first_unreal)) (vars s); vc := vc s + 1 |}).
    assert (Hold : forall j k, renamed s j k -> renamed s' j k).
    { intros j k (A&B&C&D). split; auto. split; auto. split; [unfold s'; simpl; lia|]. simpl.
      destruct (Z.eqb_spec j i) as [->|]; [congruence|auto]. }
    assert (Hnew : renamed s' i (vc s)).
    { split; auto. split; auto. split; [unfold s'; simpl; lia|]. simpl. rewrite Z.eqb_refl. reflexivity. }
    assert (Hinv : forall j k, renamed s' j k -> j = i /\ k = vc s \/ renamed s j k).
    { intros j k (A&B&C&D). simpl in D. destruct (Z.eqb_spec j i) as [->|Hj].
      - left. injection D as D. split; auto. lia.
      - right. split; auto. split; auto. split; auto.
        destruct (Hc j) as [E|(k2&A2&B2&C2&D2)]; [congruence|].
        rewrite D in D2. injection D2 as D2. lia. }
    split; [|split].
    - split.
      + intros j. simpl. destruct (Z.eqb_spec j i) as [->|].
        * right. exists (vc s). exact Hnew.
        * destruct (Hc j) as [E|(k&Hk)]; [left; auto|right; exists k; auto].
      + intros a b k Ha Hb. apply Hinv in Ha. apply Hinv in Hb.
        destruct Ha as [[-> ->]|Ha], Hb as [[-> Hk]|Hb]; auto.
        * destruct Hb as (_&_&Hb&_). lia.
        * destruct Ha as (_&_&Ha&_). lia.
        * eapply Hinj; eauto.
      + unfold s'; simpl; lia.
    - split; [exact Hold|]. simpl. apply grows_set; auto. constructor.
    - exists (vc s). split; auto.
  Qed.

  Definition brspec (n : nat) := forall x s r s', rinv s -> real x -> build comp bk n x s = BOk r s' ->
    rinv s' /\ rgrows s s' /\
    (forall j, In j (tvars (app sg x)) -> exists k, renamed s' j k) /\
    (forall f, fits_table s' f -> evaluated comp (rename f (app sg x)) = Some r).

  Lemma fits_mono s s' f : rgrows s s' -> fits_table s' f -> fits_table s f.
  Proof. intros [H _] F i k Hk. apply F; auto. Qed.

  Lemma build_loop_renames n : brspec n -> forall xs s rs s', rinv s -> (forall x, In x xs -> real x) ->
    build_loop (build comp bk n) xs s = BsOk rs s' ->
    rinv s' /\ rgrows s s' /\
    (forall j x, In x xs -> In j (tvars (app sg x)) -> exists k, renamed s' j k) /\
    (forall f, fits_table s' f -> all_some (map (fun x => evaluated comp (rename f (app sg x))) xs) = Some rs).
  Proof.
    intros IH. induction xs as [|x xs IHl]; intros s rs s' Hi Hr; cbn [build_loop].
    - intros E; injection E as <- <-. split; auto. split; [split; [auto|constructor]|]. split; [intros ? ? []|].
      intros; reflexivity.
    - destruct (build comp bk n x s) as [t s1|s1|] eqn:E1; try discriminate.
      destruct (build_loop (build comp bk n) xs s1) as [ts s2|s2|] eqn:E2; try discriminate.
      intros E; injection E as <- <-.
      destruct (IH x s t s1 Hi (Hr x (or_introl eq_refl)) E1) as (A1&A2&A3&A4).
      destruct (IHl s1 ts s2 A1 (fun y Hy => Hr y (or_intror Hy)) E2) as (B1&B2&B3&B4).
      split; auto. split; [eapply rgrows_trans; eauto|]. split.
      + intros j y [<-|Hy] Hj; [|eauto]. destruct (A3 j Hj) as (k&Hk). exists k. apply B2; auto.
      + intros f Hf. simpl. rewrite (A4 f (fits_mono _ _ _ B2 Hf)), (B4 f Hf). reflexivity.
  Qed.

  Lemma build_renames : forall n, brspec n.
  Proof.
    induction n as [|n IH]; intros x s r s' Hi Hr; [discriminate|]. cbn [build].
    destruct (deref n (bank (vars s)) x) as [x'|] eqn:Ed; [|discriminate].
    destruct (deref_seen _ _ _ _ Hi Hr Ed) as [Hs Hrec].
    destruct x' as [i|c|fs].
    - simpl in Hs. intros E. destruct (Z.ltb_spec i first_unreal).
      + destruct Hs as (H1&H2&H3). destruct (build_var_renames i s r s' Hi ltac:(lia) H1 H2 E) as (A&B&k&C&D).
        split; auto. split; auto. split.
        * rewrite H3. intros j [<-|[]]. eauto.
        * intros f Hf. rewrite H3. simpl. rewrite (Hf i k C), D. reflexivity.
      + destruct Hs as (j&k&->&Hk&Ex). unfold build_var in E.
        destruct (Z.ltb_spec (k + first_unreal) first_unreal); [lia|]. injection E as <- <-.
        split; auto. split; [split; [auto|constructor]|]. split.
        * rewrite Ex. intros j' [<-|[]]. eauto.
        * intros f Hf. rewrite Ex. simpl. rewrite (Hf j k Hk). do 3 f_equal. lia.
    - intros E; injection E as <- <-. unfold seen in Hs. split; auto. split; [split; [auto|constructor]|].
      rewrite Hs. simpl. split; [tauto|auto].
    - destruct (build_loop (build comp bk n) fs s) as [ts s1|s1|] eqn:E1; try discriminate.
      intros E. assert (HR : forall y, In y fs -> real y).
      { intros y Hy i Hin. apply (Hrec eq_refl). simpl. apply in_flat_map. eauto. }
      destruct (build_loop_renames n IH fs s ts s1 Hi HR E1) as (A&B&C&D).
      unfold computed in E. destruct (comp (TRec ts)) as [t|] eqn:Ec; [|discriminate].
      injection E as <- <-. unfold seen in Hs. split; auto. split; auto. rewrite Hs. split.
      + intros j Hj. simpl in Hj. apply in_flat_map in Hj as (y&Hy&Hj).
        apply in_map_iff in Hy as (z&<-&Hz). eauto.
      + intros f Hf. unfold rename. cbn [app]. rewrite map_map. cbn [evaluated]. rewrite map_map.
        unfold rename in D. rewrite (D f Hf). exact Ec.
  Qed.

  (** ** Totality within the limit *)
  Lemma build_loop_ext (f g : term -> bst -> bres) xs s :
    (forall x s, f x s <> BFuel -> g x s = f x s) ->
    build_loop f xs s <> BsFuel -> build_loop g xs s = build_loop f xs s.
  Proof.
    intros H. revert s. induction xs as [|x xs IH]; intros s; cbn [build_loop]; auto.
    intros Hn. rewrite H.
    - destruct (f x s) as [t s1|s1|]; auto. rewrite IH; auto.
      intros E. rewrite E in Hn. auto.
    - intros E. rewrite E in Hn. auto.
  Qed.

  Lemma build_mono : forall n m x s, (n <= m)%nat -> build comp bk n x s <> BFuel ->
    build comp bk m x s = build comp bk n x s.
  Proof.
    induction n as [|n IH]; intros m x s Hle Hn; [simpl in Hn; tauto|].
    destruct m as [|m]; [lia|]. cbn [build] in *.
    destruct (deref n (bank (vars s)) x) as [x'|] eqn:Ed; [|tauto].
    rewrite (deref_mono n m _ _ x') by (auto; lia).
    destruct x' as [i|c|fs]; auto.
    rewrite (build_loop_ext (build comp bk n) (build comp bk m)); auto.
    - intros y s1 Hy. apply IH; [lia|auto].
    - intros E. rewrite E in Hn. auto.
  Qed.

  Hypothesis Hcomp : forall t, comp t <> None.
  Variable L : list Z.
  Hypothesis HL : (length L <= Z.to_nat varsinbank)%nat.

  (** The renamed variables, each in [L], counted by [vc]. *)
  Definition counted (s : bst) : Prop :=
    exists R, NoDup R /\ Z.of_nat (length R) = vc s /\ incl R L /\ forall i, In i R <-> exists k, renamed s i k.

  Lemma build_var_total i s : rinv s -> counted s -> i < first_unreal -> b0 i = None -> bank (vars s) i = None ->
    In i L -> exists r s', build_var bk i s = BOk r s' /\ counted s'.
  Proof.
    intros Hi (R&R1&R2&R3&R4) Hlt E0 Eb Hin. unfold build_var.
    destruct (Z.ltb_spec i first_unreal); [|lia].
    assert (Hn : ~ In i R).
    { intros H1. apply R4 in H1 as (k&_&_&_&H1). congruence. }
    assert (Hlen : (length (i :: R) <= length L)%nat).
    { apply NoDup_incl_length; [constructor; auto|]. intros z [<-|Hz]; auto. }
    destruct (Z.leb_spec varsinbank (vc s)).
    - exfalso. simpl in Hlen. unfold varsinbank in *. lia.
    - eexists _, _. split; [reflexivity|].
      destruct (build_var_renames i s _ _ Hi Hlt E0 Eb
        ltac:(unfold build_var; destruct (Z.ltb_spec i first_unreal); [|lia];
              destruct (Z.leb_spec varsinbank (vc s)); [lia|reflexivity])) as (A&[B _]&k&C&D).
      exists (i :: R). split; [constructor; auto|]. split; [simpl; lia|]. split; [intros z [<-|Hz]; auto|].
      intros z. simpl. split.
      + intros [<-|Hz]; [eauto|]. apply R4 in Hz as (k2&Hk2). eauto.
      + intros (k2&K1&K2&K3&K4). simpl in K4. destruct (Z.eqb_spec z i) as [->|Hz]; auto.
        right. apply R4. destruct (ri_cases s Hi z) as [E|Hk]; [congruence|auto].
  Qed.

  Definition btotal (x : term) := forall s, rinv s -> counted s -> real x -> incl (tvars (app sg x)) L ->
    exists n r s', build comp bk n x s = BOk r s' /\ counted s'.

  Lemma build_loop_total xs : (forall x, In x xs -> btotal x) -> forall s, rinv s -> counted s ->
    (forall x, In x xs -> real x /\ incl (tvars (app sg x)) L) ->
    exists n rs s', build_loop (build comp bk n) xs s = BsOk rs s' /\ counted s'.
  Proof.
    induction xs as [|x xs IH]; intros Ht s Hi Hc Hx.
    - exists 0%nat, [], s. auto.
    - destruct (Hx x (or_introl eq_refl)) as [Hr Hv].
      destruct (Ht x (or_introl eq_refl) s Hi Hc Hr Hv) as (n&t&s1&E1&C1).
      destruct (build_renames n x s t s1 Hi Hr E1) as (I1&_).
      destruct (IH (fun y Hy => Ht y (or_intror Hy)) s1 I1 C1 (fun y Hy => Hx y (or_intror Hy))) as (m&ts&s2&E2&C2).
      exists (Nat.max n m), (t :: ts), s2. split; auto. cbn [build_loop].
      rewrite (build_mono n (Nat.max n m)) by (try lia; rewrite E1; discriminate). rewrite E1.
      rewrite (build_loop_ext (build comp bk m) (build comp bk (Nat.max n m))).
      + rewrite E2. reflexivity.
      + intros y s0 Hy. apply build_mono; [lia|auto].
      + rewrite E2. discriminate.
  Qed.

  Lemma deref_total_renaming s x : rinv s -> real x -> exists n x', deref n (bank (vars s)) x = Some x'.
  Proof.
    intros Hi Hr. destruct x as [i|c|fs]; [|exists 0%nat, (TCst c); reflexivity|exists 0%nat, (TRec fs); reflexivity].
    simpl. assert (Hlt : i < first_unreal) by (apply Hr; simpl; auto). clear Hr.
    destruct Hac as [rk Hrk].
    assert (H : forall m i, (rk i < m)%nat -> i < first_unreal -> exists n x', varval n (bank (vars s)) i = Some x').
    { induction m as [|m IH]; intros j Hm Hj; [lia|].
      destruct (ri_cases s Hi j) as [E|(k&Hk)].
      - destruct (b0 j) as [t|] eqn:E0.
        + destruct t as [j2|c|fs].
          * destruct (IH j2) as (n&x'&Hn).
            -- specialize (Hrk j (TVar j2) j2 E0 (or_introl eq_refl)). lia.
            -- eapply Hreal; [exact E0|simpl; auto].
            -- exists (S n), x'. cbn [varval]. rewrite E. auto.
          * exists 1%nat, (TCst c). simpl. rewrite E. auto.
          * exists 1%nat, (TRec fs). simpl. rewrite E. auto.
        + exists 1%nat, (TVar j). simpl. rewrite E. auto.
      - destruct Hk as (_&_&Hk&Ek). exists 2%nat, (TVar (k + first_unreal)). simpl. rewrite Ek.
        destruct (ri_cases s Hi (k + first_unreal)) as [E|(k2&Hk2)].
        + rewrite E, Hun by lia. reflexivity.
        + destruct Hk2 as (_&Hk2&_). lia. }
    apply (H (S (rk i)) i); auto.
  Qed.

  Lemma build_total : forall m x, (tsize (app sg x) < m)%nat -> btotal x.
  Proof.
    induction m as [|m IH]; intros x Hm s Hi Hc Hr Hv; [lia|].
    destruct (deref_total_renaming s x Hi Hr) as (n0&x'&Ed).
    destruct (deref_seen _ _ _ _ Hi Hr Ed) as [Hs Hrec].
    destruct x' as [i|c|fs].
    - simpl in Hs. destruct (Z.ltb_spec i first_unreal) as [Hlt|Hge].
      + destruct Hs as (H1&H2&H3).
        destruct (build_var_total i s Hi Hc Hlt H1 H2) as (r&s'&E&C).
        { apply Hv. rewrite H3. simpl; auto. }
        exists (S n0), r, s'. cbn [build]. rewrite Ed. auto.
      + destruct Hs as (j&k&->&Hk&Ex). exists (S n0). cbn [build]. rewrite Ed. unfold build_var.
        destruct (Z.ltb_spec (k + first_unreal) first_unreal); [lia|]. eauto.
    - exists (S n0), (TCst c), s. cbn [build]. rewrite Ed. auto.
    - unfold seen in Hs. assert (HR : forall y, In y fs -> real y).
      { intros y Hy i Hin. apply (Hrec eq_refl). simpl. apply in_flat_map. eauto. }
      destruct (build_loop_total fs) with (s := s) as (n1&ts&s1&E1&C1); auto.
      + intros y Hy. apply IH. rewrite Hs in Hm. simpl in Hm.
        assert (tsize (app sg y) <= list_sum (map tsize (map (app sg) fs)))%nat.
        { apply list_sum_in. apply in_map. apply in_map. auto. }
        lia.
      + intros y Hy. split; auto. intros j Hj. apply Hv. rewrite Hs. simpl. apply in_flat_map.
        exists (app sg y). split; auto. apply in_map; auto.
      + destruct (comp (TRec ts)) as [t|] eqn:Ec; [|exfalso; eapply Hcomp; eauto].
        exists (S (Nat.max n0 n1)), t, s1. split; auto. cbn [build].
        rewrite (deref_mono n0 (Nat.max n0 n1) _ _ _ ltac:(lia) Ed).
        rewrite (build_loop_ext (build comp bk n1) (build comp bk (Nat.max n0 n1))).
        * rewrite E1. unfold computed. rewrite Ec. reflexivity.
        * intros y s0 Hy. apply build_mono; [lia|auto].
        * rewrite E1. discriminate.
  Qed.
End Rename.

(** ** Whole sessions *)
Lemma rinv_start b0 s : b0 = bank s -> (forall i t, b0 i = Some t -> real t) -> rinv b0 (start_build s).
Proof.
  intros -> Hr. split.
  - intros i. left. reflexivity.
  - intros i j k (_&_&H&_). simpl in H. lia.
  - simpl. unfold varsinbank. lia.
Qed.

Definition all_tvars (ts : list term) : list Z := flat_map tvars ts.

Lemma all_some_map {A B} (f : A -> option B) l r : all_some (map f l) = Some r -> map f l = map Some r.
Proof.
  revert r. induction l as [|x l IH]; intros r; simpl.
  - intros E; injection E as <-. reflexivity.
  - destruct (f x) as [y|]; [|discriminate]. destruct (all_some (map f l)) as [r'|]; [|discriminate].
    intros E; injection E as <-. simpl. f_equal. auto.
Qed.

Lemma session_renames comp bk n s xs rs s' sg :
  acyclic (bank s) -> exhaustive (bank s) sg ->
  (forall i, first_unreal <= i -> bank s i = None) ->
  (forall i t, bank s i = Some t -> real t) ->
  (forall x, In x xs -> real x) ->
  build_all comp bk n xs (start_build s) = BsOk rs s' ->
  exists r, injective_on (all_tvars (map (app sg) xs)) r /\
    (forall i, In i (all_tvars (map (app sg) xs)) -> bk * varsinbank <= r i < bk * varsinbank + varsinbank) /\
    map (fun x => evaluated comp (rename r (app sg x))) xs = map Some rs.
Proof.
  intros Ha He Hu Hb Hx E.
  destruct (build_loop_renames comp bk (bank s) sg n
    (build_renames comp bk (bank s) sg He Hu Hb n) xs (start_build s) rs s'
    (rinv_start _ s eq_refl Hb) Hx E) as (A&B&C&D).
  set (r := fun i => match bank (vars s') i with Some (TVar j) => bk * varsinbank + (j - first_unreal) | _ => i end).
  assert (Hr : fits_table bk (bank s) s' r).
  { intros i k (_&_&_&E1). unfold r. rewrite E1. lia. }
  assert (Hc : forall i, In i (all_tvars (map (app sg) xs)) -> exists k, renamed (bank s) s' i k).
  { intros i Hi. unfold all_tvars in Hi. apply in_flat_map in Hi as (y&Hy&Hi).
    apply in_map_iff in Hy as (x&<-&Hin). eauto. }
  exists r. split; [|split].
  - intros i j Hi Hj Hij. destruct (Hc i Hi) as (k1&K1), (Hc j Hj) as (k2&K2).
    rewrite (Hr _ _ K1), (Hr _ _ K2) in Hij. assert (k1 = k2) as -> by lia.
    eapply (ri_inj _ _ A); eauto.
  - intros i Hi. destruct (Hc i Hi) as (k&K). rewrite (Hr _ _ K).
    destruct K as (_&_&K&_). pose proof (ri_vc _ _ A). lia.
  - apply all_some_map. apply D. exact Hr.
Qed.

Lemma session_succeeds comp bk s xs sg L :
  acyclic (bank s) -> exhaustive (bank s) sg ->
  (forall i, first_unreal <= i -> bank s i = None) ->
  (forall i t, bank s i = Some t -> real t) ->
  (forall x, In x xs -> real x) ->
  (forall t, comp t <> None) ->
  (length L <= Z.to_nat varsinbank)%nat -> incl (all_tvars (map (app sg) xs)) L ->
  exists n rs s', build_all comp bk n xs (start_build s) = BsOk rs s'.
Proof.
  intros Ha He Hu Hb Hx Hc HL Hi.
  destruct (build_loop_total comp bk (bank s) sg He Hu Hb L HL xs) with (s := start_build s) as (n&rs&s'&E&_).
  - intros x Hin. eapply build_total; eauto.
  - apply rinv_start; auto.
  - exists []. split; [constructor|]. split; [reflexivity|]. split; [intros ? []|].
    intros i. split; [intros []|]. intros (k&_&_&K&_). simpl in K. lia.
  - intros x Hin. split; auto. intros j Hj. apply Hi. unfold all_tvars. apply in_flat_map.
    exists (app sg x). split; auto. apply in_map; auto.
  - eauto.
Qed.

Lemma build_grown comp bk : forall n x s s',
  match build comp bk n x s with BOk _ s1 => s1 = s' | BIllegal s1 => s1 = s' | BFuel => False end ->
  grown (vars s) (vars s').
Proof.
  assert (Hset : forall i t s, bank s i = None -> grown s (setvar i t s)).
  { intros i t s E. exists [i]. split; auto. split; [repeat constructor; simpl; tauto|]. split.
    - intros j [<-|[]]. split; auto. simpl. rewrite Z.eqb_refl. discriminate.
    - intros j Hj. simpl. destruct (Z.eqb_spec j i) as [->|]; auto. exfalso. apply Hj. simpl; auto. }
  induction n as [|n IH]; intros x s s'; [intros []|]. cbn [build].
  destruct (deref n (bank (vars s)) x) as [[i|c|fs]|] eqn:Ed; [| | |tauto].
  - apply deref_ok in Ed as [Hr _]. unfold build_var.
    destruct (i <? first_unreal); [|intros <-; apply grown_refl].
    destruct (varsinbank <=? vc s); intros <-; [apply grown_refl|]. simpl. apply Hset; auto.
  - intros <-. apply grown_refl.
  - assert (HL : forall fs s,
      match build_loop (build comp bk n) fs s with
      | BsOk _ s1 => grown (vars s) (vars s1) | BsIllegal s1 => grown (vars s) (vars s1) | BsFuel => True end).
    { clear -IH. induction fs as [|f fs IHl]; intros s; cbn [build_loop]; [apply grown_refl|].
      specialize (IH f s). destruct (build comp bk n f s) as [t s1|s1|]; auto.
      specialize (IHl s1). destruct (build_loop (build comp bk n) fs s1) as [ts s2|s2|]; auto;
        (eapply grown_trans; [apply IH; reflexivity|exact IHl]). }
    specialize (HL fs s). destruct (build_loop (build comp bk n) fs s) as [ts s1|s1|]; [| |tauto].
    + unfold computed. destruct (comp (TRec ts)); intros <-; auto.
    + intros <-; auto.
Qed.

Lemma session_grown comp bk n xs s rs s' : build_all comp bk n xs s = BsOk rs s' -> grown (vars s) (vars s').
Proof.
  unfold build_all. revert s rs. induction xs as [|x xs IH]; intros s rs; cbn [build_loop].
  - intros E; injection E as <- <-. apply grown_refl.
  - destruct (build comp bk n x s) as [t s1|s1|] eqn:E1; try discriminate.
    destruct (build_loop (build comp bk n) xs s1) as [ts s2|s2|] eqn:E2; try discriminate.
    intros E; injection E as <- <-. eapply grown_trans; [|eapply IH; eauto].
    eapply build_grown. rewrite E1. reflexivity.
Qed.
