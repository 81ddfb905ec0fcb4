(** The loop of the relevance filter is a breadth-first search. *)
From Coq Require Import List ZArith Bool Lia.
From Verif Require Import SineModel SineSpec SineProof.
Import ListNotations.
Open Scope Z_scope.

Lemma filter_same {A} (f h : A -> bool) l : (forall x, In x l -> f x = h x) -> length (filter f l) = length (filter h l).
Proof.
  induction l as [|x l IH]; intros H; [reflexivity|]. cbn. rewrite (H x (or_introl eq_refl)).
  specialize (IH (fun y Hy => H y (or_intror Hy))). destruct (h x); cbn; rewrite IH; reflexivity.
Qed.
Lemma filter_step {A} (f h : A -> bool) l a : NoDup l -> In a l -> (forall x, x <> a -> In x l -> f x = h x) ->
  f a = false -> h a = true -> length (filter h l) = S (length (filter f l)).
Proof.
  induction l as [|x l IH]; intros N Ha H Fa Ga; [destruct Ha|]. inversion N as [|? ? Nx Nl]; subst. cbn.
  destruct Ha as [->|Ha].
  - rewrite Fa, Ga. cbn. f_equal. apply filter_same. intros y Hy. symmetry. apply H; [intros ->; contradiction|right; exact Hy].
  - assert (E : x <> a) by (intros ->; contradiction). rewrite <- (H x E (or_introl eq_refl)).
    specialize (IH Nl Ha (fun y Ey Hy => H y Ey (or_intror Hy)) Fa Ga). destruct (f x); cbn; rewrite IH; reflexivity.
Qed.

Section Loop.
Variables (cls : list clause) (p : params) (K0 : clause -> Z).
Hypothesis Hfit : fits cls.
Hypothesis H0 : forall c, In c cls -> K0 c = 0 \/ K0 c = 1 \/ K0 c = 121.
Hypothesis H0g : forall c, In c cls -> goal c = true -> K0 c = 1.
Let near' := near (p_g p) (p_tol2 p) cls.
Let trg := triggers (p_g p) (p_tol2 p) cls.
Definition sy (u : Z) : Prop := exists c, In c cls /\ has u c = true.
Definition U : list Z := nodup Z.eq_dec (flat_map (fun c => clause_symbols c []) cls).
Lemma in_U u : In u U <-> sy u.
Proof.
  unfold U, sy. rewrite nodup_In, in_flat_map. split; intros [c [H1 H2]]; exists c; (split; [exact H1|]).
  - apply clause_in in H2. destruct H2 as [[]|H2]. exact H2.
  - apply clause_in. right. exact H2.
Qed.
Lemma sy_range u : sy u -> (table_size <=? u) = false.
Proof. intros [c [H1 H2]]. apply Z.leb_gt. exact (proj2 (proj2 (proj2 Hfit) c u H1 H2)). Qed.
Lemma cl_range c : In c cls -> (table_size <=? cid c) = false.
Proof. intros H. apply Z.leb_gt. exact (proj2 (proj1 (proj2 Hfit) c H)). Qed.
Lemma nodup_map_inj {A B} (f : A -> B) l a b : NoDup (map f l) -> In a l -> In b l -> f a = f b -> a = b.
Proof.
  induction l as [|x l IH]; intros N Ha Hb E; [destruct Ha|]. cbn in N. inversion N as [|? ? Nx Nl]; subst.
  destruct Ha as [->|Ha], Hb as [->|Hb].
  - reflexivity.
  - exfalso. apply Nx. rewrite E. apply in_map. exact Hb.
  - exfalso. apply Nx. rewrite <- E. apply in_map. exact Ha.
  - apply IH; assumption.
Qed.
Lemma cid_inj c d : In c cls -> In d cls -> cid c = cid d -> c = d.
Proof. intros. eapply nodup_map_inj; [exact (proj1 Hfit)| | |]; eassumption. Qed.
Lemma cls_nodup : NoDup cls. Proof. exact (NoDup_map_inv cid cls (proj1 Hfit)). Qed.

Definition K (s : st) (c : clause) : Z := get_cl (clk s) c.
Definition R (s : st) (u : Z) : Z := get_uri (urk s) u.
Lemma get_set_cl t c k d : In c cls -> In d cls -> (d = c /\ get_cl (set_cl t c k) d = k) \/ (d <> c /\ get_cl (set_cl t c k) d = get_cl t d).
Proof.
  intros Hc Hd. unfold get_cl, set_cl. rewrite (cl_range c Hc), (cl_range d Hd). unfold upd. destruct (cid d =? cid c) eqn:E.
  - left. apply Z.eqb_eq in E. split; [apply cid_inj; assumption|reflexivity].
  - right. split; [|reflexivity]. intros ->. rewrite Z.eqb_refl in E. discriminate.
Qed.
Lemma get_set_uri t u k v : sy u -> sy v -> (v = u /\ get_uri (set_uri t u k) v = k) \/ (v <> u /\ get_uri (set_uri t u k) v = get_uri t v).
Proof.
  intros Hu Hv. unfold get_uri, set_uri. rewrite (sy_range u Hu), (sy_range v Hv). unfold upd. destruct (v =? u) eqn:E.
  - left. apply Z.eqb_eq in E. split; [exact E|reflexivity].
  - right. split; [|reflexivity]. intros ->. rewrite Z.eqb_refl in E. discriminate.
Qed.
Lemma near_pos n c : near' n c -> 1 <= n.
Proof. unfold near'. induction 1; lia. Qed.
Lemma near_in n c : near' n c -> In c cls.
Proof. unfold near'. destruct 1; assumption. Qed.

(** [X]: symbols being handled; [Y]: symbols still to be pushed. *)
Record inv (X : Z -> Prop) (Y : clause -> Z -> Prop) (k : Z) (s : st) : Prop := {
  iA : forall c, In c cls -> K s c = 0 \/ (1 <= K s c <= 121 /\ near' (K s c) c) \/ (K s c = 121 /\ K0 c = 121);
  iB : forall u, sy u -> R s u <> 0 -> 1 <= R s u <= 121 /\ exists c, near' (R s u) c /\ has u c = true;
  iC : forall c u, In c cls -> 1 <= K s c <= 120 -> has u c = true -> 1 <= R s u <= K s c \/ Y c u;
  iD : forall u, sy u -> R s u <> 0 -> In u (queue s) \/ 120 < R s u \/ X u \/
         (forall c, In c cls -> trg u c -> 1 <= K s c <= R s u + 1);
  iE1 : exists q1 q2, queue s = q1 ++ q2 /\ (forall u, In u q1 -> R s u = k) /\ (forall u, In u q2 -> R s u = k + 1);
  iE2 : forall u, sy u -> R s u <= k + 1;
  iE3 : forall c, In c cls -> K s c <= k + 1 \/ (K s c = 121 /\ K0 c = 121);
  iF : forall c, In c cls -> K0 c <> 0 -> K s c <> 0;
  iFg : forall c, In c cls -> goal c = true -> K s c = 1;
  iG : trig s = Z.of_nat (length (filter (fun c => negb (K s c =? K0 c)) cls));
  iH : forall u, In u (queue s) -> sy u;
  ik : 1 <= k }.
Definition none : clause -> Z -> Prop := fun _ _ => False.
Definition M (s : st) : nat := length (filter (fun u => R s u =? 0) U).
Definition size (s : st) : nat := (length (queue s) + M s)%nat.

Lemma push_ok X k c0 u l s : In c0 cls -> has u c0 = true -> K s c0 = k + 1 -> near' (k + 1) c0 -> k <= 120 ->
  inv X (fun c v => c = c0 /\ (v = u \/ In v l)) k s ->
  inv X (fun c v => c = c0 /\ In v l) k (push_sym k s u) /\
  clk (push_sym k s u) = clk s /\ trig (push_sym k s u) = trig s /\ size (push_sym k s u) = size s /\
  (forall v, sy v -> R s v <> 0 -> R (push_sym k s u) v = R s v).
Proof.
  intros Hc Hu Kc Nc Hk I. assert (Su : sy u) by (exists c0; auto). unfold push_sym. fold (R s u).
  destruct ((R s u =? 0) || (k + 1 <? R s u)) eqn:E.
  - assert (Z0 : R s u = 0).
    { apply orb_true_iff in E. destruct E as [E|E]; [apply Z.eqb_eq in E; exact E|]. apply Z.ltb_lt in E.
      pose proof (iE2 _ _ _ _ I u Su). lia. }
    set (s' := {| clk := clk s; urk := set_uri (urk s) u (k + 1); trig := trig s; queue := queue s ++ [u] |}).
    assert (EK : forall c, K s' c = K s c) by reflexivity.
    assert (ER : forall v, sy v -> (v = u /\ R s' v = k + 1) \/ (v <> u /\ R s' v = R s v)) by (intros v Hv; exact (get_set_uri (urk s) u (k + 1) v Su Hv)).
    assert (ER0 : forall v, sy v -> R s v <> 0 -> R s' v = R s v).
    { intros v Hv Rv. destruct (ER v Hv) as [[-> _]|[_ Ev]]; [contradiction|exact Ev]. }
    destruct I as [A B C D E1 E2 E3 F Fg G H k1].
    split; [|split; [reflexivity|split; [reflexivity|split; [|exact ER0]]]].
    + constructor.
      * exact A.
      * intros v Hv Rv. destruct (ER v Hv) as [[-> Ev]|[_ Ev]].
        -- rewrite Ev. split; [lia|]. exists c0. split; assumption.
        -- rewrite Ev in Rv |- *. exact (B v Hv Rv).
      * intros c v Hcc Kcc Hv. rewrite EK in Kcc |- *. assert (Sv : sy v) by (exists c; auto).
        destruct (C c v Hcc Kcc Hv) as [L|[Ec [Ev|Hl]]].
        -- left. rewrite (ER0 v Sv) by lia. exact L.
        -- subst v c. left. destruct (ER u Su) as [[_ Ev]|[N _]]; [|contradiction]. rewrite Ev, Kc. pose proof k1. lia.
        -- right. split; assumption.
      * intros v Hv Rv. destruct (ER v Hv) as [[-> Ev]|[_ Ev]].
        -- left. cbn. apply in_or_app. right. left. reflexivity.
        -- rewrite Ev in Rv |- *. destruct (D v Hv Rv) as [Q|Q]; [left; cbn; apply in_or_app; left; exact Q|right; exact Q].
      * destruct E1 as [q1 [q2 [Eq [Q1 Q2]]]]. exists q1, (q2 ++ [u]). split; [cbn; rewrite Eq, app_assoc; reflexivity|].
        split.
        -- intros v Hv. assert (Sv : sy v) by (apply H; rewrite Eq; apply in_or_app; left; exact Hv).
           rewrite (ER0 v Sv); rewrite (Q1 v Hv); [reflexivity|lia].
        -- intros v Hv. apply in_app_or in Hv. destruct Hv as [Hv|[<-|[]]].
           ++ assert (Sv : sy v) by (apply H; rewrite Eq; apply in_or_app; right; exact Hv).
              rewrite (ER0 v Sv); rewrite (Q2 v Hv); [reflexivity|lia].
           ++ destruct (ER u Su) as [[_ Ev]|[N _]]; [exact Ev|contradiction].
      * intros v Hv. destruct (ER v Hv) as [[-> Ev]|[_ Ev]]; rewrite Ev; [lia|exact (E2 v Hv)].
      * exact E3.
      * exact F.
      * exact Fg.
      * exact G.
      * intros v Hv. cbn in Hv. apply in_app_or in Hv. destruct Hv as [Hv|[<-|[]]]; [exact (H v Hv)|exact Su].
      * exact k1.
    + unfold size, M. rewrite (filter_step (fun v => R s' v =? 0) (fun v => R s v =? 0) U u).
      * subst s'. cbn [queue]. rewrite app_length. cbn [length]. lia.
      * apply NoDup_nodup.
      * apply in_U. exact Su.
      * intros v Nv Hv. apply in_U in Hv. destruct (ER v Hv) as [[-> _]|[_ Ev]]; [contradiction|]. rewrite Ev. reflexivity.
      * destruct (ER u Su) as [[_ Ev]|[N _]]; [|contradiction]. rewrite Ev. apply Z.eqb_neq. pose proof k1. lia.
      * rewrite Z0. reflexivity.
  - apply orb_false_iff in E. destruct E as [Ea Eb]. apply Z.eqb_neq in Ea. apply Z.ltb_ge in Eb.
    destruct I as [A B C D E1 E2 E3 F Fg G H k1]. split; [|repeat split; auto]. constructor; try assumption.
    intros c v Hcc Kcc Hv. destruct (C c v Hcc Kcc Hv) as [L|[Ec [Ev|Hl]]]; [left; exact L| |right; split; assumption].
    subst v c. left. rewrite Kc. destruct (B u Su Ea) as [L _]. lia.
Qed.
Lemma inv_Y X (Y Y' : clause -> Z -> Prop) k s : (forall c u, Y c u -> Y' c u) -> inv X Y k s -> inv X Y' k s.
Proof.
  intros HY [A B C D E1 E2 E3 F Fg G H k1]. constructor; try assumption.
  intros c u Hc Kc Hu. destruct (C c u Hc Kc Hu) as [L|L]; [left; exact L|right; apply HY; exact L].
Qed.
Lemma push_all_ok X k c0 l : In c0 cls -> (forall u, In u l -> has u c0 = true) -> near' (k + 1) c0 -> k <= 120 ->
  forall s, K s c0 = k + 1 -> inv X (fun c v => c = c0 /\ In v l) k s ->
  let s' := fold_left (push_sym k) l s in
  inv X none k s' /\ clk s' = clk s /\ trig s' = trig s /\ size s' = size s /\ (forall v, sy v -> R s v <> 0 -> R s' v = R s v).
Proof.
  intros Hc Hl Nc Hk. induction l as [|u l IH]; intros s Kc I; cbn.
  - split; [eapply inv_Y; [|exact I]; intros c v [_ []]|]. repeat split; auto.
  - destruct (push_ok X k c0 u l s Hc (Hl u (or_introl eq_refl)) Kc Nc Hk) as [I1 [E1 [E2 [E3 E4]]]].
    { eapply inv_Y; [|exact I]. intros c v [-> [->|Hv]]; auto. }
    destruct (IH (fun v Hv => Hl v (or_intror Hv)) (push_sym k s u)) as [J1 [J2 [J3 [J4 J5]]]].
    { unfold K in *. rewrite E1. exact Kc. } { exact I1. }
    split; [exact J1|]. split; [rewrite J2; exact E1|]. split; [rewrite J3; exact E2|]. split; [rewrite J4; exact E3|].
    intros v Hv Rv. rewrite J5; [apply E4; assumption|exact Hv|]. rewrite (E4 v Hv Rv). exact Rv.
Qed.

(** Everything near enough is reached. *)
Lemma near_le X k s m : inv X none k s -> (forall u, In u (queue s) \/ X u -> m <= R s u) ->
  forall n d, near' n d -> n <= m -> n <= 121 -> 1 <= K s d <= n.
Proof.
  intros I Hm n d Nd. induction Nd as [c Hc Gc|n c u d Nc IH Hu Hd T]; intros Ln L1.
  - rewrite (iFg _ _ _ _ I c Hc Gc). lia.
  - specialize (IH ltac:(lia) ltac:(lia)). assert (Hc : In c cls) by (exact (near_in n c Nc)).
    assert (Su : sy u) by (exists c; auto).
    destruct (iC _ _ _ _ I c u Hc ltac:(lia) Hu) as [L|[]].
    destruct (iD _ _ _ _ I u Su ltac:(lia)) as [Q|[Q|[Q|Q]]].
    + specialize (Hm u (or_introl Q)). lia.
    + lia.
    + specialize (Hm u (or_intror Q)). lia.
    + specialize (Q d Hd T). lia.
Qed.
Record outcome (m : Z) (s : st) : Prop := {
  wA : forall c, In c cls -> K s c = 0 \/ (1 <= K s c <= 121 /\ near' (K s c) c) \/ (K s c = 121 /\ K0 c = 121);
  wN : forall n d, near' n d -> n <= m -> n <= 121 -> 1 <= K s d <= n;
  wE : forall c, In c cls -> K s c <= m + 1 \/ (K s c = 121 /\ K0 c = 121);
  wF : forall c, In c cls -> K0 c <> 0 -> K s c <> 0;
  wFg : forall c, In c cls -> goal c = true -> K s c = 1;
  wG : trig s = Z.of_nat (length (filter (fun c => negb (K s c =? K0 c)) cls)) }.
Lemma inv_outcome X k s : inv X none k s -> (forall u, X u -> k <= R s u) -> outcome k s.
Proof.
  intros I HX. constructor.
  - exact (iA _ _ _ _ I).
  - apply (near_le X k s k I). intros u [Hu|Hu]; [|exact (HX u Hu)].
    destruct (iE1 _ _ _ _ I) as [q1 [q2 [Eq [Q1 Q2]]]]. rewrite Eq in Hu. apply in_app_or in Hu.
    destruct Hu as [Hu|Hu]; [rewrite (Q1 u Hu)|rewrite (Q2 u Hu)]; lia.
  - exact (iE3 _ _ _ _ I).
  - exact (iF _ _ _ _ I).
  - exact (iFg _ _ _ _ I).
  - exact (iG _ _ _ _ I).
Qed.
Lemma inv_end k s : inv (fun _ => False) none k s -> queue s = [] -> outcome 121 s.
Proof.
  intros I Eq. constructor.
  - exact (iA _ _ _ _ I).
  - apply (near_le (fun _ => False) k s 121 I). intros u [Hu|[]]. rewrite Eq in Hu. destruct Hu.
  - intros c Hc. destruct (iA _ _ _ _ I c Hc) as [L|[[L _]|[L _]]]; left; lia.
  - exact (iF _ _ _ _ I).
  - exact (iFg _ _ _ _ I).
  - exact (iG _ _ _ _ I).
Qed.

(** Giving a clause its level. *)
Definition setc (k : Z) (c : clause) (s : st) : st :=
  {| clk := set_cl (clk s) c (k + 1); urk := urk s; trig := trig s + 1; queue := queue s |}.
Lemma set_facts X k u c s : inv X none k s -> In c cls -> (K s c = 0 \/ k + 1 < K s c) -> k <= 120 ->
  R s u = k -> sy u -> trg u c ->
  K s c = K0 c /\ near' (k + 1) c /\ goal c = false /\
  trig s + 1 = Z.of_nat (length (filter (fun d => negb (K (setc k c s) d =? K0 d)) cls)).
Proof.
  intros I Hc Hk Lk Ru Su T. assert (k1 := ik _ _ _ _ I). assert (Ng : goal c = false).
  { destruct (goal c) eqn:E; [|reflexivity]. pose proof (iFg _ _ _ _ I c Hc E). lia. }
  assert (E : K s c = K0 c).
  { destruct Hk as [Hk|Hk].
    - destruct (Z.eq_dec (K0 c) 0) as [E|E]; [lia|]. pose proof (iF _ _ _ _ I c Hc E). contradiction.
    - destruct (iE3 _ _ _ _ I c Hc) as [L|[L1 L2]]; lia. }
  split; [exact E|]. split.
  { destruct (iB _ _ _ _ I u Su ltac:(lia)) as [_ [b [Nb Hb]]]. rewrite Ru in Nb. eapply near_step; eassumption. }
  split; [exact Ng|]. rewrite (iG _ _ _ _ I).
  rewrite (filter_step (fun d => negb (K s d =? K0 d)) (fun d => negb (K (setc k c s) d =? K0 d)) cls c cls_nodup Hc).
  - lia.
  - intros d Nd Hd. destruct (get_set_cl (clk s) c (k + 1) d Hc Hd) as [[-> _]|[_ Ed]]; [contradiction|].
    unfold K at 2. cbn [clk setc]. rewrite Ed. reflexivity.
  - rewrite E, Z.eqb_refl. reflexivity.
  - destruct (get_set_cl (clk s) c (k + 1) c Hc Hc) as [[_ Ed]|[N _]]; [|contradiction].
    unfold K. cbn [clk setc]. rewrite Ed. apply negb_true_iff, Z.eqb_neq. destruct (H0 c Hc) as [Z|[Z|Z]]; lia.
Qed.
Lemma set_inv X k u c s : inv X none k s -> In c cls -> (K s c = 0 \/ k + 1 < K s c) -> k <= 120 ->
  R s u = k -> sy u -> trg u c ->
  inv X (fun d v => d = c /\ In v (clause_symbols c [])) k (setc k c s) /\ K (setc k c s) c = k + 1 /\ near' (k + 1) c.
Proof.
  intros I Hc Hk Lk Ru Su T. destruct (set_facts X k u c s I Hc Hk Lk Ru Su T) as [E [N [Ng G']]].
  assert (EK : forall d, In d cls -> (d = c /\ K (setc k c s) d = k + 1) \/ (d <> c /\ K (setc k c s) d = K s d)) by (intros d Hd; exact (get_set_cl (clk s) c (k + 1) d Hc Hd)).
  assert (ER : forall v, R (setc k c s) v = R s v) by reflexivity.
  destruct I as [A B C D E1 E2 E3 F Fg G H k1].
  split; [|split; [destruct (EK c Hc) as [[_ Ec]|[Nc _]]; [exact Ec|contradiction]|exact N]].
  constructor.
  - intros d Hd. destruct (EK d Hd) as [[-> Ed]|[_ Ed]]; rewrite Ed; [|exact (A d Hd)]. right. left. split; [lia|exact N].
  - exact B.
  - intros d v Hd Kd Hv. destruct (EK d Hd) as [[-> Ed]|[_ Ed]].
    + right. split; [reflexivity|]. apply clause_in. right. exact Hv.
    + rewrite Ed in Kd |- *. destruct (C d v Hd Kd Hv) as [L|[]]. left. exact L.
  - intros v Hv Rv. destruct (D v Hv Rv) as [Q|[Q|[Q|Q]]]; [left; exact Q|right; left; exact Q|right; right; left; exact Q|].
    right. right. right. intros d Hd Td. destruct (EK d Hd) as [[-> Ed]|[_ Ed]]; rewrite Ed; [|exact (Q d Hd Td)].
    specialize (Q c Hd Td). rewrite ER. lia.
  - exact E1.
  - exact E2.
  - intros d Hd. destruct (EK d Hd) as [[-> Ed]|[_ Ed]]; rewrite Ed; [left; lia|exact (E3 d Hd)].
  - intros d Hd Kd. destruct (EK d Hd) as [[-> Ed]|[_ Ed]]; rewrite Ed; [lia|exact (F d Hd Kd)].
  - intros d Hd Gd. destruct (EK d Hd) as [[-> Ed]|[_ Ed]]; [congruence|]. rewrite Ed. exact (Fg d Hd Gd).
  - exact G'.
  - exact H.
  - exact k1.
Qed.
Lemma set_outcome X k u c s : inv X none k s -> (forall v, X v -> k <= R s v) -> In c cls -> (K s c = 0 \/ k + 1 < K s c) -> k <= 120 ->
  R s u = k -> sy u -> trg u c -> outcome k (setc k c s).
Proof.
  intros I HX Hc Hk Lk Ru Su T. destruct (set_inv X k u c s I Hc Hk Lk Ru Su T) as [J [Kc N]].
  assert (O := inv_outcome X k s I HX). constructor.
  - exact (iA _ _ _ _ J).
  - intros n d Nd Ln L1. assert (L := wN _ _ O n d Nd Ln L1).
    destruct (get_set_cl (clk s) c (k + 1) d Hc (near_in n d Nd)) as [[-> _]|[_ Ed]]; [lia|].
    unfold K. cbn [clk setc]. rewrite Ed. exact L.
  - exact (iE3 _ _ _ _ J).
  - exact (iF _ _ _ _ J).
  - exact (iFg _ _ _ _ J).
  - exact (iG _ _ _ _ J).
Qed.

Let t := analyze cls.
Lemma occ_loop_ok k u : k <= 120 -> sy u -> forall l seen s, filter (has u) cls = seen ++ l ->
  inv (eq u) none k s -> R s u = k -> (forall c, In c seen -> trg u c -> 1 <= K s c <= k + 1) ->
  let s' := occ_loop p t k (count cls u) l s in
  (inv (fun _ => False) none k s' /\ size s' = size s) \/ (outcome k s' /\ p_maxtriggers p <= trig s').
Proof.
  intros Lk Su l. induction l as [|c l IH]; intros seen s El I Ru Hs; cbn [occ_loop].
  - left. split; [|reflexivity]. destruct I as [A B C D E1 E2 E3 F Fg G H k1]. constructor; try assumption.
    intros v Hv Rv. destruct (D v Hv Rv) as [Q|[Q|[<-|Q]]]; [left; exact Q|right; left; exact Q| |right; right; right; exact Q].
    right. right. right. intros c Hc T. rewrite Ru. apply Hs; [|exact T]. rewrite app_nil_r in El. rewrite <- El.
    apply filter_In. split; [exact Hc|exact (proj1 T)].
  - assert (Hc : In c cls /\ has u c = true) by (apply filter_In; rewrite El; apply in_or_app; right; left; reflexivity).
    destruct Hc as [Hc Hu]. assert (El' : filter (has u) cls = (seen ++ [c]) ++ l) by (rewrite <- app_assoc; exact El).
    fold (K s c). assert (k1 := ik _ _ _ _ I). destruct ((K s c =? 0) || (k + 1 <? K s c)) eqn:E.
    + assert (Hk : K s c = 0 \/ k + 1 < K s c).
      { apply orb_true_iff in E. destruct E as [E|E]; [left; apply Z.eqb_eq; exact E|right; apply Z.ltb_lt; exact E]. }
      destruct ((p_g p <? count cls u) && negb (check_cl (scount t) c (count cls u) (p_tol2 p) 0)) eqn:Et.
      * apply (IH (seen ++ [c]) s El' I Ru). intros d Hd T. apply in_app_or in Hd. destruct Hd as [Hd|[<-|[]]]; [exact (Hs d Hd T)|].
        apply (check_trigger (p_g p) (p_tol2 p) cls u c Hu) in T. subst t. congruence.
      * assert (T : trg u c) by (apply (check_trigger (p_g p) (p_tol2 p) cls u c Hu); exact Et).
        fold (setc k c s). destruct (p_maxtriggers p <=? trig (setc k c s)) eqn:Em.
        -- right. split; [|apply Z.leb_le; exact Em]. apply (set_outcome (eq u) k u c s); try assumption.
           intros v <-. lia.
        -- destruct (set_inv (eq u) k u c s I Hc Hk Lk Ru Su T) as [J [Kc N]].
           destruct (push_all_ok (eq u) k c (clause_symbols c []) Hc) with (s := setc k c s) as [P1 [P2 [P3 [P4 P5]]]]; try assumption.
           { intros v Hv. apply clause_in in Hv. destruct Hv as [[]|Hv]. exact Hv. }
           set (s2 := fold_left (push_sym k) (clause_symbols c []) (setc k c s)) in *.
           assert (EK : forall d, K s2 d = K (setc k c s) d) by (intros d; unfold K; rewrite P2; reflexivity).
           destruct (IH (seen ++ [c]) s2 El' P1) as [[Q1 Q2]|Q].
           ++ rewrite P5; [exact Ru|exact Su|]. change (R (setc k c s) u) with (R s u). lia.
           ++ intros d Hd Td. rewrite EK. assert (Hd2 : In d cls).
              { apply (filter_In (has u)). rewrite El'. apply in_or_app. left. exact Hd. }
              destruct (get_set_cl (clk s) c (k + 1) d Hc Hd2) as [[-> Ed]|[Nd Ed]]; unfold K; cbn [clk setc]; rewrite Ed; [lia|].
              apply in_app_or in Hd. destruct Hd as [Hd|[<-|[]]]; [exact (Hs d Hd Td)|contradiction].
           ++ left. split; [exact Q1|]. rewrite Q2, P4. reflexivity.
           ++ right. exact Q.
    + apply orb_false_iff in E. destruct E as [Ea Eb]. apply Z.eqb_neq in Ea. apply Z.ltb_ge in Eb.
      apply (IH (seen ++ [c]) s El' I Ru). intros d Hd T. apply in_app_or in Hd. destruct Hd as [Hd|[<-|[]]]; [exact (Hs d Hd T)|].
      destruct (iA _ _ _ _ I c Hc) as [L|[[L _]|[L _]]]; lia.
Qed.

Lemma main_ok fuel : forall k s, inv (fun _ => False) none k s -> (size s < fuel)%nat ->
  exists s' m, main_loop p t fuel s = Some s' /\ outcome m s' /\ (121 <= m \/ p_maxtriggers p <= trig s').
Proof.
  induction fuel as [|fuel IH]; intros k s I Hf; [lia|]. cbn [main_loop]. destruct (queue s) as [|u r] eqn:Eq.
  - exists s, 121. split; [reflexivity|]. split; [exact (inv_end k s I Eq)|left; lia].
  - destruct (p_maxtriggers p <=? trig s) eqn:Em.
    { exists s, k. split; [reflexivity|]. split; [apply (inv_outcome (fun _ => False)); [exact I|intros v []]|right; apply Z.leb_le; exact Em]. }
    fold (R s u). assert (Su : sy u) by (apply (iH _ _ _ _ I); rewrite Eq; left; reflexivity).
    assert (Sz : size s = S (size (pop s r))) by (unfold size; cbn; rewrite Eq; reflexivity).
    (* the popped state, with the level of the symbol as bound *)
    assert (J : inv (eq u) none (R s u) (pop s r)).
    { destruct I as [A B C D E1 E2 E3 F Fg G H k1]. destruct E1 as [q1 [q2 [Ex [Q1 Q2]]]]. rewrite Eq in Ex.
      assert (Lu : R s u = k \/ R s u = k + 1).
      { destruct q1 as [|a q1]; cbn in Ex; [right; apply Q2; rewrite <- Ex; left; reflexivity|]. injection Ex as -> _. left. apply Q1. left. reflexivity. }
      constructor; try assumption.
      - intros v Hv Rv. destruct (D v Hv Rv) as [Q|[Q|[[]|Q]]].
        + rewrite Eq in Q. destruct Q as [->|Q]; [right; right; left; reflexivity|left; exact Q].
        + right. left. exact Q.
        + right. right. right. exact Q.
      - destruct q1 as [|a q1]; cbn in Ex.
        + assert (Ru : R s u = k + 1) by (apply Q2; rewrite <- Ex; left; reflexivity).
          exists r, []. split; [cbn; rewrite app_nil_r; reflexivity|]. split; [|intros v []].
          intros v Hv. change (R (pop s r) v) with (R s v). rewrite Ru. apply Q2. rewrite <- Ex. right. exact Hv.
        + injection Ex as -> Ex. assert (Ru : R s a = k) by (apply Q1; left; reflexivity).
          exists q1, q2. split; [exact Ex|]. rewrite Ru. split; [intros v Hv; apply Q1; right; exact Hv|exact Q2].
      - intros v Hv. change (R (pop s r) v) with (R s v). specialize (E2 v Hv). lia.
      - intros c Hc. change (K (pop s r) c) with (K s c). destruct (E3 c Hc) as [L|L]; [left; lia|right; exact L].
      - intros v Hv. apply H. rewrite Eq. right. exact Hv.
      - lia. }
    destruct (maxk <? R s u) eqn:Ek.
    + apply (IH (R s u)); [|lia]. apply Z.ltb_lt in Ek. unfold maxk in Ek. destruct J as [A B C D E1 E2 E3 F Fg G H k1].
      constructor; try assumption. intros v Hv Rv. destruct (D v Hv Rv) as [Q|[Q|[<-|Q]]]; [left; exact Q|right; left; exact Q| |right; right; right; exact Q].
      right. left. exact Ek.
    + apply Z.ltb_ge in Ek. unfold maxk in Ek.
      assert (Ec : scount t u = count cls u) by exact (proj1 (analyze_ok cls u)).
      assert (Eo : occs t u = filter (has u) cls) by exact (proj2 (analyze_ok cls u)). rewrite Ec, Eo.
      destruct (occ_loop_ok (R s u) u Ek Su (filter (has u) cls) [] (pop s r) eq_refl J eq_refl) as [[Q1 Q2]|[Q1 Q2]].
      * intros c [].
      * apply (IH (R s u)); [exact Q1|]. rewrite Q2. lia.
      * set (s1 := occ_loop p t (R s u) (count cls u) (filter (has u) cls) (pop s r)) in *.
        assert (Es : main_loop p t fuel s1 = Some s1).
        { destruct fuel as [|f]; [lia|]. cbn. destruct (queue s1); [reflexivity|].
          apply Z.leb_le in Q2. rewrite Q2. reflexivity. }
        exists s1, (R s u). split; [exact Es|]. split; [exact Q1|right; exact Q2].
Qed.
End Loop.
