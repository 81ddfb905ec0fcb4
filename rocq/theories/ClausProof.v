(** Proofs about negation pushing and miniscoping. *)
From Coq Require Import List String Bool Arith Lia Classical_Prop.
From Verif Require Import ClausModel ClausSpec.
Import ListNotations.

(** * Induction and equality *)
Fixpoint sx_ind2 (P : sx -> Prop) (HA : forall a, P (Sa a)) (HL : forall l, Forall P l -> P (Sl l)) (t : sx) : P t :=
  match t with
  | Sa a => HA a
  | Sl l => HL l ((fix go l : Forall P l := match l with [] => Forall_nil _ | x :: r => Forall_cons _ (sx_ind2 P HA HL x) (go r) end) l)
  end.

Lemma atom_eq_dec : forall a b : atom, {a = b} + {a <> b}.
Proof. decide equality; try apply string_dec; decide equality. Defined.
Lemma atom_eqb_eq a b : atom_eqb a b = true <-> a = b.
Proof.
  destruct a as [c|t s], b as [d|t' s']; cbn; try (split; discriminate).
  - destruct c, d; cbn; split; intro H; try reflexivity; try discriminate.
  - rewrite andb_true_iff, String.eqb_eq. destruct t, t'; cbn; split; intro H; try (destruct H; discriminate); try discriminate.
    all: try (destruct H; subst; reflexivity). all: inversion H; auto.
Qed.

(** * Semantics of the list connectives *)
Lemma sem_and {D} (I : interp D) e args : sem I e (Sl (Sa (Con CAnd) :: args)) <-> Forall (sem I e) args.
Proof.
  cbn. induction args as [|x r IH]; [split; constructor|].
  rewrite IH. split; [intros [? ?]; constructor; auto | intro H; inversion H; auto].
Qed.
Lemma sem_or {D} (I : interp D) e args : sem I e (Sl (Sa (Con COr) :: args)) <-> Exists (sem I e) args.
Proof.
  cbn. induction args as [|x r IH]; [split; [intros []|intro H; inversion H]|].
  rewrite IH. split; [intros [?|?]; [left|right]; auto | intro H; inversion H; auto].
Qed.
Fixpoint imp_chain {D} (I : interp D) e (l : list sx) : Prop :=
  match l with [] => False | [x] => sem I e x | x :: r => sem I e x -> imp_chain I e r end.
Lemma sem_imp {D} (I : interp D) e args : sem I e (Sl (Sa (Con CImp) :: args)) <-> imp_chain I e args.
Proof.
  cbn. induction args as [|x r IH]; [reflexivity|]. destruct r as [|y r]; [reflexivity|].
  cbn [imp_chain]. rewrite <- IH. reflexivity.
Qed.

Lemma term_ok_app a args : term_ok (Sl (Sa a :: args)) <-> sym a /\ Forall term_ok args.
Proof.
  cbn. apply and_iff_compat_l. induction args as [|x r IH]; [split; constructor|].
  rewrite IH. split; [intros [? ?]; constructor; auto | intro H; inversion H; auto].
Qed.
Lemma term_copy_ok t : term_ok t -> copy_ok t = true.
Proof.
  induction t as [a|l IH] using sx_ind2; [reflexivity|].
  destruct l as [|[a|?] args]; try (intros []; fail). rewrite term_ok_app. intros [_ H].
  cbn. inversion IH as [|? ? _ IH']; subst. apply forallb_forall. intros x Hx.
  rewrite Forall_forall in IH', H. auto.
Qed.
Lemma atomic_copy_ok f : atomic f -> copy_ok f = true.
Proof.
  intros [|]; [reflexivity|]. cbn. apply forallb_forall. intros x Hx. rewrite Forall_forall in H0. apply term_copy_ok; auto.
Qed.
Lemma copy_cons x l : copy_ok (Sl (x :: l)) = copy_ok x && forallb copy_ok l.
Proof. reflexivity. Qed.
Lemma wff_copy_ok bin f : wff bin f -> copy_ok f = true.
Proof.
  induction f as [a|l IH] using sx_ind2; [reflexivity|].
  intro W. inversion W as [? A|? W1|? W1|c args _ _ W1|? ? W1 W2|c vs ? _ Hv Hsy W1]; subst.
  - apply atomic_copy_ok; auto.
  - inversion IH as [|? ? IH1 _]; subst. rewrite copy_cons, IH1; auto.
  - inversion IH as [|? ? _ IH1]; inversion IH1 as [|? ? IH2 _]; subst.
    rewrite copy_cons. cbn [forallb copy_ok]. rewrite IH2; auto.
  - inversion IH as [|? ? _ IH1]; subst. rewrite copy_cons. cbn [copy_ok andb].
    apply forallb_forall. intros x Hx. rewrite Forall_forall in IH1, W1. auto.
  - inversion IH as [|? ? _ IH1]; inversion IH1 as [|? ? IH2 IH3]; inversion IH3 as [|? ? IH4 _]; subst.
    rewrite copy_cons. cbn [forallb copy_ok]. rewrite IH2, IH4; auto.
  - inversion IH as [|? ? _ IH1]; inversion IH1 as [|? ? IH2 IH3]; inversion IH3 as [|? ? IH4 _]; subst.
    rewrite copy_cons. cbn [forallb]. rewrite IH4 by auto. rewrite andb_true_r. cbn [copy_ok].
    destruct vs as [|v vs]; [congruence|]. cbn. apply forallb_forall. intros x Hx. apply in_map_iff in Hx as [? [<- _]]. reflexivity.
Qed.

(** * Negation normal form *)
Fixpoint push_all (l : list sx) (s : bool) : option (list sx) :=
  match l with
  | [] => Some []
  | x :: r => match negpush x s, push_all r s with Some y, Some r' => Some (y :: r') | _, _ => None end
  end.
Definition push_imp (l : list sx) (s : bool) : option (list sx) :=
  (fix go (l : list sx) : option (list sx) :=
     match l with
     | [] => Some []
     | [x] => match negpush x s with Some y => Some [y] | None => None end
     | x :: r => match negpush x (negb s), go r with Some y, Some r' => Some (y :: r') | _, _ => None end
     end) l.
Lemma np_many c x y r s : c = CAnd \/ c = COr ->
  negpush (Sl (Sa (Con c) :: x :: y :: r)) s =
  match push_all (x :: y :: r) s with Some l => Some (Sl (Sa (Con (dual_q s c)) :: rev l)) | None => None end.
Proof. intros [-> | ->]; reflexivity. Qed.
Lemma np_imp x y r s :
  negpush (Sl (Sa (Con CImp) :: x :: y :: r)) s =
  match push_imp (x :: y :: r) s with Some l => Some (Sl (Sa (Con (if s then COr else CAnd)) :: rev l)) | None => None end.
Proof. reflexivity. Qed.

Definition np_ok (bin : bool) (f : sx) : Prop := forall s, exists f',
  negpush f s = Some f' /\ nnf bin f' /\
  forall D (I : interp D) e, sem I e f' <-> (if s then sem I e f else ~ sem I e f).

Lemma atomic_sem_cases f : atomic f -> is_lit_body f = true.
Proof. intros [a H|a args H _]; [reflexivity|]. destruct a; [destruct H|reflexivity]. Qed.
Lemma np_atomic bin f : atomic f -> np_ok bin f.
Proof.
  intros A s. assert (E : negpush f s = Some (if s then f else mk_not f)).
  { destruct A as [a H|a args H _]; [reflexivity|]. destruct a; [destruct H|]. destruct args; reflexivity. }
  rewrite E. eexists; split; [reflexivity|]. split.
  - apply N_lit. destruct s; [constructor|apply L_neg]; exact A.
  - intros. destruct s; reflexivity.
Qed.

Lemma push_all_ok bin l : Forall (np_ok bin) l -> forall s, exists l',
  push_all l s = Some l' /\ Forall (nnf bin) l' /\ List.length l' = List.length l /\
  forall D (I : interp D) e, Forall2 (fun f' f => sem I e f' <-> (if s then sem I e f else ~ sem I e f)) l' l.
Proof.
  induction 1 as [|x r Hx _ IH]; intro s.
  - exists []. repeat split; try constructor.
  - destruct (Hx s) as (y & E1 & N1 & S1). destruct (IH s) as (r' & E2 & N2 & L2 & S2).
    exists (y :: r'). cbn. rewrite E1, E2. repeat split; auto; cbn; try congruence; constructor; auto.
Qed.
Lemma push_imp_ok bin l : l <> [] -> Forall (np_ok bin) l -> forall s, exists l',
  push_imp l s = Some l' /\ Forall (nnf bin) l' /\ List.length l' = List.length l /\
  forall D (I : interp D) e, (if s then Exists (sem I e) l' else Forall (sem I e) l') <->
                             (if s then imp_chain I e l else ~ imp_chain I e l).
Proof.
  intros Hne H s. revert Hne. induction H as [|x r Hx Hr IH]; intro Hne; [congruence|].
  destruct r as [|z r].
  - destruct (Hx s) as (y & E1 & N1 & S1). exists [y]. cbn. rewrite E1. repeat split; auto. 
    destruct s; cbn.
    + intro H; inversion H as [? ? H1|? ? H1]; [apply S1; auto|inversion H1].
    + intro H; inversion H; subst. apply S1; auto.
    + destruct s; intro H; [left; apply S1; auto|constructor; [apply S1; auto|constructor]].
  - destruct (Hx (negb s)) as (y & E1 & N1 & S1). destruct IH as (r' & E2 & N2 & L2 & S2); [discriminate|].
    exists (y :: r'). change (push_imp (x :: z :: r) s) with
      (match negpush x (negb s), push_imp (z :: r) s with Some y, Some r' => Some (y :: r') | _, _ => None end).
    rewrite E1, E2. repeat split; auto; cbn [List.length] in *; try congruence;
      change (imp_chain I e (x :: z :: r)) with (sem I e x -> imp_chain I e (z :: r)).
    + destruct s; cbn [negb] in *; intro H.
      * inversion H as [? ? H1|? ? H1]; subst; [apply S1 in H1; intro; tauto|intros _; apply S2; auto].
      * inversion H as [|? ? H1 H2]; subst. apply S1 in H1. apply S2 in H2. tauto.
    + specialize (S1 D I e). specialize (S2 D I e). destruct s; cbn [negb] in *; intro H.
      * destruct (classic (sem I e x)) as [X|X]; [right; apply S2; auto|left; apply S1; auto].
      * assert (sem I e x /\ ~ imp_chain I e (z :: r)) as [X Y]
          by (split; [destruct (classic (sem I e x)); tauto|tauto]).
        constructor; [apply S1; auto|apply S2; auto].
Qed.

Lemma Forall_rev_iff {A} (P : A -> Prop) l : Forall P (rev l) <-> Forall P l.
Proof. split; intro H; [rewrite <- (rev_involutive l)|]; apply Forall_rev; exact H. Qed.
Lemma Exists_rev_iff {A} (P : A -> Prop) l : Exists P (rev l) <-> Exists P l.
Proof. rewrite !Exists_exists. split; intros (x & H & Px); exists x; split; auto; apply in_rev; [|rewrite rev_involutive]; auto. Qed.
Lemma F2_len {A B} (R : A -> B -> Prop) l m : Forall2 R l m -> List.length l = List.length m.
Proof. induction 1; cbn; congruence. Qed.

Lemma F2_forall {D} (I : interp D) e l l' : Forall2 (fun f' f => sem I e f' <-> sem I e f) l' l ->
  (Forall (sem I e) l' <-> Forall (sem I e) l).
Proof. induction 1; [split; auto|]. split; intro H1; inversion H1; constructor; tauto. Qed.
Lemma F2_exists {D} (I : interp D) e l l' : Forall2 (fun f' f => sem I e f' <-> sem I e f) l' l ->
  (Exists (sem I e) l' <-> Exists (sem I e) l).
Proof. induction 1; [split; intro H1; inversion H1|]. split; intro H1; inversion H1; subst; [left|right|left|right]; tauto. Qed.
Lemma F2_nforall {D} (I : interp D) e l l' : Forall2 (fun f' f => sem I e f' <-> ~ sem I e f) l' l ->
  (Exists (sem I e) l' <-> ~ Forall (sem I e) l).
Proof.
  induction 1 as [|x y l' l E _ IH].
  - split; [intro H; inversion H|intro H; destruct H; constructor].
  - split; intro H.
    + intro F. inversion F; subst. inversion H; subst; tauto.
    + destruct (classic (sem I e y)) as [Y|Y]; [right; apply IH; intro; apply H; constructor; auto|left; tauto].
Qed.
Lemma F2_nexists {D} (I : interp D) e l l' : Forall2 (fun f' f => sem I e f' <-> ~ sem I e f) l' l ->
  (Forall (sem I e) l' <-> ~ Exists (sem I e) l).
Proof.
  induction 1 as [|x y l' l E _ IH].
  - split; [intros _ H; inversion H|constructor].
  - split; intro H.
    + inversion H; subst. intro F. inversion F; subst; tauto.
    + constructor; [apply E; intro; apply H; left; auto|apply IH; intro; apply H; right; auto].
Qed.
Lemma arity_len bin l l' : List.length l = List.length l' -> arity bin l -> arity bin l'.
Proof. unfold arity. destruct bin; lia. Qed.
Lemma arity_2 bin x y : arity bin [x; y].
Proof. unfold arity. destruct bin; cbn; lia. Qed.
Lemma arity_shape bin l : arity bin l -> exists x y r, l = x :: y :: r.
Proof. destruct l as [|x [|y r]]; unfold arity; destruct bin; cbn; try lia; eauto. Qed.

Lemma negpush_ok bin f : wff bin f -> np_ok bin f.
Proof.
  induction f as [a|l IH] using sx_ind2.
  - intro W. inversion W; subst. apply np_atomic; auto.
  - intro W. inversion W as [? A|? W1|? W1|c args Hc Ha W1|? ? W1 W2|c vs ? Hc Hv Hsy W1]; subst.
    + apply np_atomic; auto.
    + inversion IH as [|? ? IH1 _]; subst. intro s. destruct (IH1 W1 s) as (f' & E & N & S1).
      exists f'. assert (l0 <> []) by (intros ->; inversion W1; subst; inversion H).
      destruct l0 as [|x l0]; [congruence|]. repeat split; auto; apply S1.
    + inversion IH as [|? ? _ IH0]; inversion IH0 as [|? ? IH1 _]; subst. specialize (IH1 W1). intro s.
      destruct (is_lit_body f) eqn:L.
      * assert (atomic f) as A.
        { inversion W1; subst; auto; exfalso; try discriminate L. }
        exists (if s then Sl [Sa (Con CNot); f] else f). split; [cbn; rewrite L; reflexivity|]. split.
        -- apply N_lit. destruct s; [apply L_neg|apply L_pos]; auto.
        -- intros. destruct s; [reflexivity|]. change (sem I e f <-> ~ ~ sem I e f). split; [tauto|apply NNPP].
      * destruct (IH1 (negb s)) as (f' & E & N & S1). exists f'. split; [cbn; rewrite L; exact E|]. split; auto.
        intros. rewrite S1. change (sem I e (Sl [Sa (Con CNot); f])) with (~ sem I e f).
        destruct s; cbn; [reflexivity|]. split; [tauto|apply NNPP].
    + assert (Forall (np_ok bin) args) as HN.
      { inversion IH as [|? ? _ IH1]; subst. rewrite Forall_forall in *. auto. }
      destruct (arity_shape _ _ Ha) as (x & y & r & ->). intro s. remember (x :: y :: r) as args eqn:Eargs.
      destruct Hc as [->|[->| ->]].
      * destruct (push_all_ok _ _ HN s) as (l' & E & N & L & S1).
        exists (Sl (Sa (Con (dual_q s CAnd)) :: rev l')). split; [subst; rewrite np_many, E; auto|]. split.
        -- apply N_many; [destruct s; cbn; auto|eapply arity_len; [|exact Ha]; rewrite rev_length; auto|apply Forall_rev_iff; auto].
        -- intros. specialize (S1 D I e). destruct s; cbn [dual_q]; rewrite (sem_and I e args).
           ++ rewrite sem_and, Forall_rev_iff. apply F2_forall; auto.
           ++ rewrite sem_or, Exists_rev_iff. apply F2_nforall; auto.
      * destruct (push_all_ok _ _ HN s) as (l' & E & N & L & S1).
        exists (Sl (Sa (Con (dual_q s COr)) :: rev l')). split; [subst; rewrite np_many, E; auto|]. split.
        -- apply N_many; [destruct s; cbn; auto|eapply arity_len; [|exact Ha]; rewrite rev_length; auto|apply Forall_rev_iff; auto].
        -- intros. specialize (S1 D I e). destruct s; cbn [dual_q]; rewrite (sem_or I e args).
           ++ rewrite sem_or, Exists_rev_iff. apply F2_exists; auto.
           ++ rewrite sem_and, Forall_rev_iff. apply F2_nexists; auto.
      * destruct (push_imp_ok bin args ltac:(subst; discriminate) HN s) as (l' & E & N & L & S1).
        exists (Sl (Sa (Con (if s then COr else CAnd)) :: rev l')). split; [subst; rewrite np_imp, E; auto|]. split.
        -- apply N_many; [destruct s; cbn; auto|eapply arity_len; [|exact Ha]; rewrite rev_length; auto|apply Forall_rev_iff; auto].
        -- intros. specialize (S1 D I e). destruct s; rewrite (sem_imp I e args).
           ++ rewrite sem_or, Exists_rev_iff. auto.
           ++ rewrite sem_and, Forall_rev_iff. auto.
    + inversion IH as [|? ? _ IH1]; inversion IH1 as [|? ? IH2 IH3]; inversion IH3 as [|? ? IH4 _]; subst.
      specialize (IH2 W1). specialize (IH4 W2). intro s.
      destruct (IH2 (negb s)) as (r1 & E1 & N1 & S1). destruct (IH4 s) as (r2 & E2 & N2 & S2).
      destruct (IH2 s) as (r3 & E3 & N3 & S3). destruct (IH4 (negb s)) as (r4 & E4 & N4 & S4).
      eexists. split; [cbn; rewrite E1, E2, E3, E4, (wff_copy_ok _ _ W1), (wff_copy_ok _ _ W2); reflexivity|]. split.
      * assert (NB : forall c a b, c = CAnd \/ c = COr -> nnf bin a -> nnf bin b -> nnf bin (Sl [Sa (Con c); a; b]))
          by (intros; apply N_many; auto; apply arity_2).
        destruct s; auto 8.
      * intros. specialize (S1 D I e). specialize (S2 D I e). specialize (S3 D I e). specialize (S4 D I e).
        change (sem I e (Sl [Sa (Con CEqv); f; g])) with (sem I e f <-> sem I e g).
        destruct s; cbn [negb sem] in *; rewrite S1, S2, S3, S4;
        destruct (classic (sem I e f)); destruct (classic (sem I e g)); tauto.
    + inversion IH as [|? ? _ IH1]; inversion IH1 as [|? ? IH2 IH3]; inversion IH3 as [|? ? IH4 _]; subst.
      specialize (IH4 W1). intro s. destruct (IH4 s) as (b & E & N & S1).
      exists (Sl [Sa (Con (dual_q s c)); Sl (map Sa vs); b]). split; [destruct Hc as [-> | ->]; cbn; rewrite E; reflexivity|]. split.
      * apply N_q; auto. destruct s, Hc as [-> | ->]; cbn; auto.
      * intros. destruct s, Hc as [-> | ->]; cbn [dual_q sem].
        -- split; intros H e' V; apply S1; auto.
        -- split; intros (e' & V & H); exists e'; split; auto; apply S1; auto.
        -- split.
           ++ intros (e' & V & H) K. apply S1 in H. apply H. auto.
           ++ intro H. apply NNPP. intro K. apply H. intros e' V. apply NNPP. intro X. apply K. exists e'. split; auto. apply S1; auto.
        -- split.
           ++ intros H (e' & V & K). specialize (H e' V). apply S1 in H. auto.
           ++ intros H e' V. apply S1. intro X. apply H. exists e'. auto.
Qed.
