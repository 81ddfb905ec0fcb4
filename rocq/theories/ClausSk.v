(** Proofs about Skolemization. *)
From Coq Require Import List String Bool Arith Lia Classical_Prop ClassicalEpsilon DecimalString DecimalNat.
From Verif Require Import ClausModel ClausSpec ClausProof ClausMini.
Import ListNotations.

(** * Generated names are distinct *)
Lemma dec_inj i j : dec i = dec j -> i = j.
Proof.
  unfold dec. intro H. apply (f_equal NilEmpty.uint_of_string) in H. rewrite !NilEmpty.usu in H.
  injection H as H. apply Unsigned.to_uint_inj; auto.
Qed.
Lemma xatom_inj i j : xatom i = xatom j -> i = j.
Proof. unfold xatom. intro H. injection H as H. apply dec_inj; auto. Qed.
Lemma skatom_inj i j : skatom i = skatom j -> i = j.
Proof. unfold skatom. intro H. injection H as H. apply dec_inj; auto. Qed.
Lemma dfatom_inj i j : dfatom i = dfatom j -> i = j.
Proof. unfold dfatom. intro H. injection H as H. apply dec_inj; auto. Qed.
Lemma sk_df i j : skatom i <> dfatom j.
Proof. unfold skatom, dfatom. intro H. injection H as H. discriminate. Qed.

(** * What a formula's meaning depends on *)
Lemma mem_in a vs : mem a vs = true <-> In (Sa a) vs.
Proof.
  unfold mem. rewrite existsb_exists. split.
  - intros ([b|] & Hx & E); [|discriminate]. apply atom_eqb_eq in E. subst; auto.
  - intro H. exists (Sa a). split; auto. apply atom_eqb_eq; auto.
Qed.
Lemma tm_ext {D} (I : interp D) t : forall e e', (forall a, In a (targs t) -> e a = e' a) -> tm I e t = tm I e' t.
Proof.
  induction t as [a|l IH] using sx_ind2; intros e e' H; [cbn; rewrite (H a); [reflexivity|left; auto]|].
  destruct l as [|[h|?] args]; try reflexivity. cbn. f_equal. apply map_ext_F. inversion IH as [|? ? _ IH1]; subst.
  rewrite Forall_forall in *. intros x Hx. apply IH1; auto. intros a Ha. apply H. cbn. apply in_flat_map. eauto.
Qed.
Definition updv {D} (vs : list sx) (e1 e : env D) : env D := fun a => if mem a vs then e1 a else e a.
Lemma sem_ext f : forall D (I : interp D) e e', (forall a, In a (fargs f) -> e a = e' a) -> (sem I e f <-> sem I e' f).
Proof.
  induction f as [a|l IH] using sx_ind2; intros D I e e' H; [reflexivity|].
  destruct l as [|[h|k] args]; [reflexivity| |].
  - destruct h as [c|ty s].
    + inversion IH as [|? ? _ IH1]; subst.
      assert (GEN : (c = CNot \/ c = CAnd \/ c = COr \/ c = CImp \/ c = CEqv) ->
                    Forall (fun x => sem I e x <-> sem I e' x) args).
      { intro Hc. rewrite Forall_forall in *. intros x Hx. apply IH1; auto. intros a Ha. apply H.
        assert (E : fargs (Sl (Sa (Con c) :: args)) = flat_map fargs args)
          by (destruct Hc as [->|[->|[->|[->| ->]]]]; reflexivity).
        rewrite E. apply in_flat_map. eauto. }
      assert (QUA : forall vs b, args = [Sl vs; b] -> (c = CAll \/ c = CEx) -> forall (e1 e2 e3 : env D),
         (forall a, In a (fargs (Sl (Sa (Con c) :: args))) -> e1 a = e2 a) -> variant vs e1 e3 ->
         variant vs e2 (updv vs e3 e2) /\ (sem I e3 b <-> sem I (updv vs e3 e2) b)).
      { intros vs b -> Hc e1 e2 e3 He V. split.
        - intro a. unfold updv. destruct (mem a vs) eqn:M.
          + apply mem_in in M. split; [intros _; apply V; auto|tauto].
          + assert (~ In (Sa a) vs) by (rewrite <- mem_in; congruence). tauto.
        - inversion IH1 as [|? ? _ IH2]; inversion IH2 as [|? ? IH3 _]; subst. apply IH3. intros a Ha. unfold updv.
          destruct (mem a vs) eqn:M; [reflexivity|].
          rewrite (proj2 (V a)) by (rewrite <- mem_in; congruence). apply He.
          assert (E : fargs (Sl [Sa (Con c); Sl vs; b]) = filter (fun a => negb (mem a vs)) (fargs b))
            by (destruct Hc as [-> | ->]; reflexivity).
          rewrite E. apply filter_In. rewrite M. auto. }
      destruct c.
      * destruct args as [|x [|y r]]; try reflexivity. specialize (GEN ltac:(auto)). inversion GEN; subst.
        rewrite !sem_not. tauto.
      * specialize (GEN ltac:(auto)). rewrite !sem_and. rewrite !Forall_forall. rewrite Forall_forall in GEN.
        split; intros F x Hx; apply (GEN x Hx); auto.
      * specialize (GEN ltac:(auto)). rewrite !sem_or. rewrite !Exists_exists. rewrite Forall_forall in GEN.
        split; intros (x & Hx & F); exists x; split; auto; apply (GEN x Hx); auto.
      * specialize (GEN ltac:(auto)). rewrite !sem_imp. clear IH IH1 H QUA. induction GEN as [|x r Hx Hr IHr]; [reflexivity|].
        destruct r as [|y r]; [auto|].
        change (imp_chain I e (x :: y :: r)) with (sem I e x -> imp_chain I e (y :: r)).
        change (imp_chain I e' (x :: y :: r)) with (sem I e' x -> imp_chain I e' (y :: r)).
        rewrite IHr, Hx. reflexivity.
      * destruct args as [|x [|y [|z r]]]; try reflexivity. specialize (GEN ltac:(auto 6)).
        inversion GEN as [|? ? G1 G2]; inversion G2 as [|? ? G3 _]; subst. cbn. rewrite G1, G3. reflexivity.
      * destruct args as [|[?|vs] [|b [|z r]]]; try reflexivity. specialize (QUA vs b eq_refl (or_introl eq_refl)).
        cbn [sem]. split; intros F e1 V.
        -- destruct (QUA e' e e1) as [V2 Q]; auto. { intros. symmetry. auto. } apply Q. auto.
        -- destruct (QUA e e' e1) as [V2 Q]; auto. apply Q. auto.
      * destruct args as [|[?|vs] [|b [|z r]]]; try reflexivity. specialize (QUA vs b eq_refl (or_intror eq_refl)).
        cbn [sem]. split; intros (e1 & V & F).
        -- destruct (QUA e e' e1) as [V2 Q]; auto. eexists. split; [exact V2|]. apply Q. auto.
        -- destruct (QUA e' e e1) as [V2 Q]; auto. { intros. symmetry. auto. } eexists. split; [exact V2|]. apply Q. auto.
    + rewrite !sem_app by exact Logic.I. rewrite (map_ext_F (tm I e) (tm I e') args); [reflexivity|].
      apply Forall_forall. intros x Hx. apply tm_ext. intros a Ha. apply H. cbn. apply in_flat_map. eauto.
  - destruct args; [|destruct k; reflexivity]. inversion IH as [|? ? H1 _]; subst. destruct k as [|k]; cbn in *.
    reflexivity. apply (H1 D I e e' H).
Qed.

Lemma in_syms_head a l : sym a -> In a (syms (Sl (Sa a :: l))).
Proof. destruct a; [intros []|]. intros _. left. auto. Qed.
Lemma tm_same {D} (N : atom -> Prop) (I I' : interp D) t : same_but N I I' -> (forall c, ~ N (Con c)) ->
  (forall a, In a (syms t) -> ~ N a) -> forall e, tm I e t = tm I' e t.
Proof.
  intros SB HC. induction t as [a|l IH] using sx_ind2; intros H e.
  - cbn. destruct (e a); [reflexivity|]. destruct a as [c|]; apply SB; [apply HC|apply H; left; auto].
  - destruct l as [|[h|?] args]; [apply SB, HC| |apply SB, HC]. cbn [tm]. rewrite (map_ext_F (tm I e) (tm I' e) args).
    + destruct h as [c|]; apply SB; [apply HC|apply H; left; auto].
    + inversion IH as [|? ? _ IH1]; subst. rewrite Forall_forall in *. intros x Hx. apply IH1; auto.
      intros a Ha. apply H. cbn. apply in_or_app. right. apply in_flat_map. eauto.
Qed.
Lemma sem_same {D} (N : atom -> Prop) (I I' : interp D) f : same_but N I I' -> (forall c, ~ N (Con c)) ->
  (forall a, In a (syms f) -> ~ N a) -> forall e, sem I e f <-> sem I' e f.
Proof.
  intros SB HC. induction f as [a|l IH] using sx_ind2; intros H e.
  - cbn. destruct (logic_const a) as [[]|]; try reflexivity. destruct a as [c|]; apply SB; [apply HC|apply H; left; auto].
  - assert (A : Forall (fun x => forall e, sem I e x <-> sem I' e x) l).
    { rewrite Forall_forall in *. intros x Hx. apply IH; auto. intros a Ha. apply H. cbn. apply in_flat_map. eauto. }
    destruct l as [|[h|k] args]; [reflexivity| |].
    + destruct h as [c|ty s].
      * inversion A as [|? ? _ GEN]; subst. destruct c.
        -- destruct args as [|x [|y r]]; try reflexivity. inversion GEN; subst. rewrite !sem_not. rewrite H2. reflexivity.
        -- rewrite !sem_and. rewrite !Forall_forall. rewrite Forall_forall in GEN. split; intros F x Hx; apply (GEN x Hx); auto.
        -- rewrite !sem_or. rewrite !Exists_exists. rewrite Forall_forall in GEN.
           split; intros (x & Hx & F); exists x; split; auto; apply (GEN x Hx); auto.
        -- rewrite !sem_imp. clear A IH H. induction GEN as [|x r Hx Hr IHr]; [reflexivity|].
           destruct r as [|y r]; [cbn; auto|].
           change (imp_chain I e (x :: y :: r)) with (sem I e x -> imp_chain I e (y :: r)).
           change (imp_chain I' e (x :: y :: r)) with (sem I' e x -> imp_chain I' e (y :: r)).
           rewrite IHr, Hx. reflexivity.
        -- destruct args as [|x [|y [|z r]]]; try reflexivity.
           inversion GEN as [|? ? G1 G2]; inversion G2 as [|? ? G3 _]; subst. cbn. rewrite G1, G3. reflexivity.
        -- destruct args as [|[?|vs] [|b [|z r]]]; try reflexivity.
           inversion GEN as [|? ? G1 G2]; inversion G2 as [|? ? G3 _]; subst. cbn [sem]. setoid_rewrite G3. reflexivity.
        -- destruct args as [|[?|vs] [|b [|z r]]]; try reflexivity.
           inversion GEN as [|? ? G1 G2]; inversion G2 as [|? ? G3 _]; subst. cbn [sem]. setoid_rewrite G3. reflexivity.
      * rewrite !sem_app by exact Logic.I. rewrite (map_ext_F (tm I e) (tm I' e) args).
        -- apply SB. apply H. left; auto.
        -- apply Forall_forall. intros x Hx. apply (tm_same N); auto. intros a Ha. apply H. cbn. right. apply in_flat_map. eauto.
    + destruct args; [|destruct k; reflexivity]. inversion A as [|? ? H1 _]; subst. destruct k as [|k]; cbn in *; [reflexivity|auto].
Qed.
Lemma same_refl {D} N (I : interp D) : same_but N I I.
Proof. intros a _. repeat split; auto. Qed.
Lemma same_sym {D} N (I I' : interp D) : same_but N I I' -> same_but N I' I.
Proof. intros H a Ha. destruct (H a Ha) as (A & B & C). repeat split; auto; apply C. Qed.
Lemma same_trans {D} (N N1 N2 : atom -> Prop) (I I1 I2 : interp D) :
  same_but N1 I I1 -> same_but N2 I1 I2 -> (forall a, N1 a \/ N2 a -> N a) -> same_but N I I2.
Proof.
  intros H1 H2 HN a Ha. destruct (H1 a) as (A & B & C); [intro; apply Ha; auto|]. destruct (H2 a) as (A' & B' & C'); [intro; apply Ha; auto|].
  repeat split; [congruence|congruence| |]; rewrite C, C'; auto.
Qed.
Lemma same_le {D} (N N' : atom -> Prop) (I I' : interp D) : same_but N I I' -> (forall a, N a -> N' a) -> same_but N' I I'.
Proof. intros H HN a Ha. apply H. auto. Qed.

(** * Association lists *)
Definition tv (al : assoc) : list atom :=
  flat_map (fun p => match snd p with Sa (Sym TVar s) => [Sym TVar s] | _ => [] end) al.
Definition skt (j : nat) (xs : list atom) : sx :=
  match xs with [] => Sa (skatom j) | _ => Sl (Sa (skatom j) :: map Sa xs) end.
Lemma univ_fold al : forall acc,
  fold_left (fun t p => match snd p with Sa (Sym TVar s) => Sa (Sym TVar s) :: t | _ => t end) al acc =
  (map Sa (rev (tv al)) ++ acc)%list.
Proof.
  induction al as [|[v t] r IH]; intro acc; [reflexivity|]. cbn [fold_left snd]. rewrite IH. unfold tv. cbn [flat_map snd].
  destruct t as [[c|[] s]|l]; cbn [app]; try reflexivity. cbn [rev]. rewrite map_app, <- app_assoc. reflexivity.
Qed.
Lemma univ_vars_eq al : univ_vars al = map Sa (rev (tv al)).
Proof. unfold univ_vars. rewrite univ_fold, app_nil_r. reflexivity. Qed.
Lemma skolem_term_eq al j : skolem_term al j = skt j (rev (tv al)).
Proof. unfold skolem_term. rewrite univ_vars_eq. unfold skt. destruct (rev (tv al)); reflexivity. Qed.

Definition aval (n k : nat) (al : assoc) (t : sx) : Prop :=
  (exists i, i <= n /\ t = Sa (xatom i)) \/ (exists j xs, j <= k /\ incl xs (tv al) /\ t = skt j xs).
Definition al_ok (n k : nat) (al : assoc) : Prop :=
  forall v t, In (v, t) al -> bindable v = true /\ aval n k al t.
Lemma lookup_in al a t : lookup al a = Some t -> In (a, t) al.
Proof.
  induction al as [|[v x] r IH]; cbn; [discriminate|]. destruct (atom_eqb v a) eqn:E; intro H.
  - injection H as ->. apply atom_eqb_eq in E. subst. auto.
  - auto.
Qed.
Lemma lookup_none al a : lookup al a = None <-> ~ In a (map fst al).
Proof.
  induction al as [|[v x] r IH]; cbn; [tauto|]. destruct (atom_eqb v a) eqn:E.
  - apply atom_eqb_eq in E. split; [discriminate|tauto].
  - rewrite IH. assert (v <> a) by (intro; apply atom_eqb_eq in H; congruence). tauto.
Qed.
Lemma tv_in al x : In x (tv al) <-> exists v s, In (v, Sa x) al /\ x = Sym TVar s.
Proof.
  unfold tv. rewrite in_flat_map. split.
  - intros ([v t] & H & E). destruct t as [[c|[] s]|l]; cbn in E; try tauto. destruct E as [<-|[]]. eauto.
  - intros (v & s & H & ->). exists (v, Sa (Sym TVar s)). split; auto. left; auto.
Qed.
Lemma skt_syms j xs : Forall (fun x => is_tvar x = true) xs -> syms (skt j xs) = skatom j :: xs.
Proof.
  intro F. assert (flat_map syms (map Sa xs) = xs) as E.
  { induction F as [|x r Hx _ IH]; cbn; [reflexivity|]. rewrite IH. destruct x as [|[]]; try discriminate; reflexivity. }
  destruct xs; [reflexivity|]. unfold skt. cbn [syms flat_map app skatom]. rewrite E. reflexivity.
Qed.
Lemma al_tv n k al x : al_ok n k al -> In x (tv al) -> exists i, i <= n /\ x = xatom i.
Proof.
  intros H Hx. apply tv_in in Hx as (v & s & Hin & ->). destruct (H _ _ Hin) as [_ [(i & Hi & E)|(j & xs & _ & _ & E)]].
  - injection E as ->. eauto.
  - destruct xs; cbn in E; discriminate.
Qed.
Lemma al_tvar n k al x : al_ok n k al -> In x (tv al) -> is_tvar x = true.
Proof. intros H Hx. destruct (al_tv _ _ _ _ H Hx) as (i & _ & ->). reflexivity. Qed.
Lemma map_Sa_terms xs : Forall (fun x => is_tvar x = true) xs -> Forall term_ok (map Sa xs).
Proof. induction 1 as [|x r Hx _ IH]; constructor; auto. destruct x; [discriminate|exact I]. Qed.
Lemma aval_term n k al t : al_ok n k al -> aval n k al t -> term_ok t.
Proof.
  intros Ho [(i & _ & ->)|(j & xs & _ & Hi & ->)]; [exact I|].
  destruct xs as [|x r] eqn:E; [exact I|]. unfold skt. apply term_ok_app. split; [exact I|].
  apply map_Sa_terms. rewrite Forall_forall. intros y Hy. eapply al_tvar; eauto.
Qed.
Lemma aval_syms n k al t a : al_ok n k al -> aval n k al t -> In a (syms t) ->
  (exists j, j <= k /\ a = skatom j) \/ (exists i, i <= n /\ a = xatom i).
Proof.
  intros Ho [(i & Hi & ->)|(j & xs & Hj & Hi & ->)] Ha.
  - destruct Ha as [<-|[]]. eauto.
  - rewrite skt_syms in Ha; [|rewrite Forall_forall; intros; eapply al_tvar; eauto].
    destruct Ha as [<-|Ha]; eauto. right. apply Hi in Ha. eapply al_tv; eauto.
Qed.
Lemma aval_targs n k al t a : al_ok n k al -> aval n k al t -> In (t) (map snd al) -> In a (targs t) -> is_tvar a = true -> In a (tv al).
Proof.
  intros Ho [(i & Hi & ->)|(j & xs & Hj & Hi & ->)] Hin Ha Ht.
  - destruct Ha as [<-|[]]. apply in_map_iff in Hin as ([v t] & E & Hin). cbn in E. subst. apply tv_in. exists v. eexists. split; [exact Hin|reflexivity].
  - destruct xs as [|x r].
    + destruct Ha as [<-|[]]. discriminate.
    + unfold skt in Ha. cbn in Ha. destruct Ha as [<-|Ha]; [apply Hi; left; auto|]. apply Hi. right.
      apply in_flat_map in Ha as (y & Hy & Hb). apply in_map_iff in Hy as (z & <- & Hz). destruct Hb as [<-|[]]; auto.
Qed.
Lemma al_ok_le n k n' k' al : n <= n' -> k <= k' -> al_ok n k al -> al_ok n' k' al.
Proof.
  intros Hn Hk H v t Hin. destruct (H v t Hin) as [Hb [(i & Hi & ->)|(j & xs & Hj & Hi & ->)]]; (split; [auto|]).
  - left. exists i. split; [lia|auto].
  - right. exists j, xs. split; [lia|auto].
Qed.

(** * Meaning through an association list *)
Definition e_of {D} (I : interp D) (al : assoc) (u : env D) : env D := fun a => option_map (tm I u) (lookup al a).
Lemma full_none {D} (u : env D) a : full u -> is_tvar a = false -> u a = None.
Proof. intros F H. specialize (F a). destruct (u a); auto. rewrite H in F. exfalso. assert (Some d <> None) by discriminate. apply F in H0. discriminate. Qed.
Lemma full_some {D} (u : env D) a : full u -> is_tvar a = true -> exists d, u a = Some d.
Proof. intros F H. specialize (F a). destruct (u a); eauto. exfalso. apply F in H. auto. Qed.

Lemma aval_dep {D} (I : interp D) n k al t (u u' : env D) : al_ok n k al -> In t (map snd al) -> full u -> full u' ->
  (forall x, In x (tv al) -> u x = u' x) -> tm I u t = tm I u' t.
Proof.
  intros Ho Hin F F' H. assert (A : aval n k al t).
  { apply in_map_iff in Hin as ([v t'] & E & Hin). cbn in E. subst. eapply Ho; eauto. }
  apply tm_ext. intros a Ha. destruct (is_tvar a) eqn:T.
  - apply H. eapply aval_targs; eauto.
  - rewrite !full_none; auto.
Qed.
Lemma e_of_dep {D} (I : interp D) n k al (u u' : env D) : al_ok n k al -> full u -> full u' ->
  (forall x, In x (tv al) -> u x = u' x) -> forall a, e_of I al u a = e_of I al u' a.
Proof.
  intros Ho F F' H a. unfold e_of. destruct (lookup al a) eqn:E; [|reflexivity]. cbn. f_equal.
  eapply aval_dep; eauto. apply lookup_in in E. apply in_map_iff. eexists. split; [|exact E]. reflexivity.
Qed.
Definition skN (k k' : nat) (a : atom) : Prop := exists i, k < i <= k' /\ a = skatom i.
Lemma skN_con k k' c : ~ skN k k' (Con c). Proof. intros (i & _ & H). discriminate. Qed.
Lemma skN_x k k' i : ~ skN k k' (xatom i). Proof. intros (j & _ & H). discriminate. Qed.
Lemma e_of_same {D} (I I' : interp D) n k k' al u : al_ok n k al -> same_but (skN k k') I I' ->
  forall a, e_of I al u a = e_of I' al u a.
Proof.
  intros Ho S a. unfold e_of. destruct (lookup al a) eqn:E; [|reflexivity]. cbn. f_equal.
  apply lookup_in in E. apply (tm_same (skN k k')); [auto|apply skN_con|].
  intros b Hb. destruct (Ho _ _ E) as [_ A]. destruct (aval_syms _ _ _ _ _ Ho A Hb) as [(j & Hj & ->)|(i & _ & ->)]; [|apply skN_x].
  intros (i & Hi & H). apply skatom_inj in H. lia.
Qed.

(** * The two ways of extending the list *)
Lemma append_mono al vs : forall new all n k new' n' k', append_vars al new vs all n k = Some (new', n', k') ->
  n <= n' /\ k <= k' /\ (if all then k' = k else n' = n) /\
  (forall a, ~ In a vs -> lookup new' a = lookup new a) /\ (forall a, In a (map fst new') <-> In a vs \/ In a (map fst new)) /\
  (exists add, new' = (add ++ new)%list /\ forall v t, In (v, t) add -> In v vs /\
     if all then exists i, n < i <= n' /\ t = Sa (xatom i) else exists j, k < j <= k' /\ t = skolem_term al j).
Proof.
  induction vs as [|v r IH]; intros new all n k new' n' k' E; cbn in E.
  - injection E as <- <- <-. split; [auto|]. split; [auto|]. split; [destruct all; auto|]. split; [auto|]. split; [cbn; tauto|]. exists []. split; [reflexivity|]. intros ? ? [].
  - destruct (bindable v); [|discriminate].
    destruct all; destruct (IH _ _ _ _ _ _ _ E) as (Hn & Hk & He & Hl & Hd & add & Ea & Hadd).
    + split; [lia|]. split; [auto|]. split; [auto|]. split; [|split].
      * intros a Ha. rewrite Hl by (cbn in Ha; tauto). cbn. destruct (atom_eqb v a) eqn:V; [|reflexivity].
        apply atom_eqb_eq in V. subst. cbn in Ha. tauto.
      * intro a. rewrite Hd. cbn. tauto.
      * exists (add ++ [(v, Sa (xatom (S n)))])%list. split; [rewrite <- app_assoc; exact Ea|].
        intros w t Hin. apply in_app_or in Hin as [Hin|[Hin|[]]].
        -- destruct (Hadd _ _ Hin) as (Hw & i & Hi & ->). split; [right; auto|]. exists i. split; [lia|auto].
        -- injection Hin as <- <-. split; [left; auto|]. exists (S n). split; [lia|auto].
    + split; [lia|]. split; [lia|]. split; [auto|]. split; [|split].
      * intros a Ha. rewrite Hl by (cbn in Ha; tauto). cbn. destruct (atom_eqb v a) eqn:V; [|reflexivity].
        apply atom_eqb_eq in V. subst. cbn in Ha. tauto.
      * intro a. rewrite Hd. cbn. tauto.
      * exists (add ++ [(v, skolem_term al (S k))])%list. split; [rewrite <- app_assoc; exact Ea|].
        intros w t Hin. apply in_app_or in Hin as [Hin|[Hin|[]]].
        -- destruct (Hadd _ _ Hin) as (Hw & i & Hi & ->). split; [right; auto|]. exists i. split; [lia|auto].
        -- injection Hin as <- <-. split; [left; auto|]. exists (S k). split; [lia|auto].
Qed.
Lemma append_total al vs : Forall (fun v => bindable v = true) vs -> forall new all n k,
  exists new' n' k', append_vars al new vs all n k = Some (new', n', k').
Proof.
  induction 1 as [|v r Hv _ IH]; intros; cbn; [eauto|]. rewrite Hv. destruct all; apply IH.
Qed.
Lemma append_al_ok al vs all n k al' n' k' : Forall (fun v => bindable v = true) vs -> al_ok n k al ->
  append_vars al al vs all n k = Some (al', n', k') -> al_ok n' k' al' /\ incl (tv al) (tv al').
Proof.
  intros Hb Ho E. destruct (append_mono _ _ _ _ _ _ _ _ _ E) as (Hn & Hk & He & Hl & Hd & add & -> & Hadd).
  assert (T : incl (tv al) (tv (add ++ al)%list)). { intros x Hx. unfold tv in *. rewrite flat_map_app. apply in_or_app; auto. }
  split; [|exact T]. intros v t Hin. apply in_app_or in Hin as [Hin|Hin].
  - destruct (Hadd _ _ Hin) as [Hv Ht]. rewrite Forall_forall in Hb. split; [auto|]. destruct all.
    + destruct Ht as (i & Hi & ->). left. exists i. split; [lia|auto].
    + destruct Ht as (j & Hj & ->). right. exists j, (rev (tv al)). split; [lia|]. split; [|apply skolem_term_eq].
      intros x Hx. apply T. apply in_rev; auto.
  - destruct (Ho _ _ Hin) as [Hv [(i & Hi & ->)|(j & xs & Hj & Hi & ->)]]; (split; [auto|]).
    + left. exists i. split; [lia|auto].
    + right. exists j, xs. split; [lia|]. split; auto. eapply incl_tran; eauto.
Qed.

Definition set1 {D} (u : env D) (x : atom) (o : option D) : env D := fun a => if atom_eqb a x then o else u a.
Lemma set1_eq {D} (u : env D) x o : set1 u x o x = o.
Proof. unfold set1. rewrite (proj2 (atom_eqb_eq x x)); auto. Qed.
Lemma set1_neq {D} (u : env D) x o a : a <> x -> set1 u x o a = u a.
Proof. unfold set1. destruct (atom_eqb a x) eqn:E; [apply atom_eqb_eq in E; tauto|auto]. Qed.
Definition xoff (n n' : nat) (a : atom) : Prop := forall i, n < i <= n' -> a <> xatom i.
Definition only {D} (n n' : nat) (u u' : env D) : Prop := forall a, xoff n n' a -> u' a = u a.

Lemma append_all_env {D} al vs (e' : env D) : (forall v, In v vs -> e' v <> None) ->
  forall new n k new' n' k' u, append_vars al new vs true n k = Some (new', n', k') -> full u ->
  exists u', full u' /\ only n n' u u' /\
    (forall a, In a vs -> exists i, n < i <= n' /\ lookup new' a = Some (Sa (xatom i)) /\ u' (xatom i) = e' a).
Proof.
  induction vs as [|v r IH]; intros He new n k new' n' k' u E F.
  - exists u. split; [auto|]. split; [intros a _; auto|intros a []].
  - cbn in E. destruct (bindable v); [|discriminate].
    destruct (append_mono _ _ _ _ _ _ _ _ _ E) as (Hn & _ & _ & Hl & _).
    destruct (IH ltac:(intros; apply He; right; auto) _ _ _ _ _ _ (set1 u (xatom (S n)) (e' v)) E) as (u' & F' & O' & A').
    { intro a. unfold set1. destruct (atom_eqb a (xatom (S n))) eqn:X; [|apply F]. apply atom_eqb_eq in X. subst.
      split; intro; [reflexivity|]. apply He. left; auto. }
    exists u'. split; [auto|]. split.
    + intros a Ha. rewrite O'; [|intros i Hi; apply Ha; lia]. apply set1_neq. apply Ha. lia.
    + intros a Ha. destruct (in_dec atom_eq_dec a r) as [Hr|Hr].
      * destruct (A' a Hr) as (i & Hi & L & U). exists i. split; [lia|auto].
      * destruct Ha as [<-|Ha]; [|tauto]. exists (S n). split; [lia|]. split.
        -- rewrite Hl by auto. cbn. rewrite (proj2 (atom_eqb_eq v v)); auto.
        -- rewrite O'; [apply set1_eq|]. intros i Hi H. apply xatom_inj in H. lia.
Qed.

Definition setI {D} (I : interp D) (x : atom) (g : list D -> D) : interp D :=
  mkI (fun a => if atom_eqb a x then g [] else cst I a) (fun a => if atom_eqb a x then g else fn I a) (pr I).
Lemma setI_same {D} (I : interp D) x g : same_but (fun a => a = x) I (setI I x g).
Proof.
  intros a Ha. unfold setI; cbn. destruct (atom_eqb a x) eqn:E; [apply atom_eqb_eq in E; tauto|]. repeat split; auto.
Qed.
Lemma setI_at {D} (I : interp D) x g : cst (setI I x g) x = g [] /\ forall ds, fn (setI I x g) x ds = g ds.
Proof. unfold setI; cbn. rewrite (proj2 (atom_eqb_eq x x)) by auto. auto. Qed.
Lemma tm_vars {D} (I I' : interp D) xs (u : env D) : full u -> Forall (fun x => is_tvar x = true) xs ->
  map (tm I u) (map Sa xs) = map (tm I' u) (map Sa xs).
Proof.
  intros F H. induction H as [|x r Hx _ IH]; [reflexivity|]. cbn [map]. f_equal; auto. cbn.
  destruct (full_some u x F Hx) as [d ->]. reflexivity.
Qed.
Lemma tm_skt {D} (I : interp D) j xs (u : env D) g : full u -> Forall (fun x => is_tvar x = true) xs ->
  cst I (skatom j) = g [] -> (forall ds, fn I (skatom j) ds = g ds) -> tm I u (skt j xs) = g (map (tm I u) (map Sa xs)).
Proof.
  intros F Hx Hc Hf. destruct xs as [|x r].
  - cbn. rewrite full_none by auto. exact Hc.
  - unfold skt. cbn [tm]. rewrite Hf. reflexivity.
Qed.

Lemma append_ex_interp {D} n0 k0 al vs (W : list D -> atom -> D) : al_ok n0 k0 al ->
  forall new n k new' n' k' (I : interp D), append_vars al new vs false n k = Some (new', n', k') ->
  exists I', same_but (skN k k') I I' /\
    (forall a, In a vs -> exists j, k < j <= k' /\ lookup new' a = Some (skolem_term al j) /\
       forall u, full u -> tm I' u (skolem_term al j) = W (map (tm I u) (univ_vars al)) a).
Proof.
  intro Ho.
  assert (HT : Forall (fun x => is_tvar x = true) (rev (tv al))).
  { rewrite Forall_forall. intros x Hx. apply in_rev in Hx. eapply al_tvar; eauto. }
  induction vs as [|v r IH]; intros new n k new' n' k' I E.
  - exists I. split; [apply same_refl|]. intros a [].
  - cbn in E. destruct (bindable v); [|discriminate].
    destruct (append_mono _ _ _ _ _ _ _ _ _ E) as (_ & Hk & _ & Hl & _).
    destruct (IH _ _ _ _ _ _ (setI I (skatom (S k)) (fun ds => W ds v)) E) as (I' & S' & A').
    exists I'. split.
    + eapply same_trans; [apply setI_same|exact S'|]. intros a [->|(i & Hi & ->)]; [exists (S k)|exists i]; split; auto; lia.
    + intros a Ha. destruct (in_dec atom_eq_dec a r) as [Hr|Hr].
      * destruct (A' a Hr) as (j & Hj & L & U). exists j. split; [lia|]. split; [auto|]. intros u F. rewrite U by auto.
        rewrite univ_vars_eq. f_equal. apply tm_vars; auto.
      * destruct Ha as [<-|Ha]; [|tauto]. exists (S k). split; [lia|]. split.
        -- rewrite Hl by auto. cbn. rewrite (proj2 (atom_eqb_eq v v)); auto.
        -- intros u F. rewrite skolem_term_eq, univ_vars_eq.
           assert (N : ~ skN (S k) k' (skatom (S k))) by (intros (i & Hi & H); apply skatom_inj in H; lia).
           destruct (S' _ N) as (A1 & A2 & _).
           rewrite (tm_skt I' (S k) (rev (tv al)) u (fun ds => W ds v)); auto.
           ++ f_equal. apply tm_vars; auto.
           ++ rewrite <- A1. exact (proj1 (setI_at I (skatom (S k)) (fun ds => W ds v))).
           ++ intro ds. rewrite <- A2. exact (proj2 (setI_at I (skatom (S k)) (fun ds => W ds v)) ds).
Qed.

(** * Literals *)
Definition alsym (al : assoc) (a : atom) : Prop := exists v t, In (v, t) al /\ In a (syms t).
Lemma rep_atom n k al a : al_ok n k al -> lookup al a = None -> replace_vars al (Sa a) = Sa a.
Proof. intros _ H. cbn. rewrite H. destruct (bindable a); reflexivity. Qed.
Lemma rep_some n k al a t : al_ok n k al -> lookup al a = Some t -> replace_vars al (Sa a) = t.
Proof. intros Ho H. cbn. rewrite H. apply lookup_in in H. destruct (Ho _ _ H) as [-> _]. reflexivity. Qed.
Lemma rep_tm n k al t : al_ok n k al -> term_ok t -> (forall h, In h (theads t) -> lookup al h = None) ->
  (forall a, In a (targs t) -> is_tvar a = true -> lookup al a <> None) ->
  term_ok (replace_vars al t) /\
  (forall D (I : interp D) u, full u -> tm I u (replace_vars al t) = tm I (e_of I al u) t) /\
  (forall a, In a (targs (replace_vars al t)) -> is_tvar a = true -> In a (tv al)) /\
  (forall a, In a (syms (replace_vars al t)) -> In a (syms t) \/ alsym al a).
Proof.
  intro Ho. induction t as [a|l IH] using sx_ind2; intros W Hh Ht.
  - destruct (lookup al a) as [t|] eqn:L.
    + rewrite (rep_some n k _ _ _ Ho L). pose proof (lookup_in _ _ _ L) as Hin. destruct (Ho _ _ Hin) as [_ A].
      split; [eapply aval_term; eauto|]. split; [|split].
      * intros D I u _. cbn. unfold e_of. rewrite L. reflexivity.
      * intros b Hb Tb. eapply aval_targs; eauto. apply in_map_iff. exists (a, t). auto.
      * intros b Hb. right. exists a, t. auto.
    + rewrite (rep_atom n k _ _ Ho L). split; [auto|]. split; [|split].
      * intros D I u F. cbn. unfold e_of. rewrite L. cbn. rewrite full_none; auto.
        destruct (is_tvar a) eqn:T; auto. exfalso. apply (Ht a); auto. left; auto.
      * intros b [<-|[]] Tb. exfalso. apply (Ht a); auto. left; auto.
      * auto.
  - destruct l as [|[h|?] args]; try (destruct W; fail). apply term_ok_app in W as [Sh Hargs].
    inversion IH as [|? ? _ IH1]; subst.
    assert (E : replace_vars al (Sl (Sa h :: args)) = Sl (Sa h :: map (replace_vars al) args)).
    { transitivity (Sl (replace_vars al (Sa h) :: map (replace_vars al) args)); [reflexivity|].
      rewrite (rep_atom n k); auto. apply Hh. left; auto. }
    rewrite E. rewrite Forall_forall in *.
    assert (K : forall x, In x args -> term_ok (replace_vars al x) /\
        (forall D (I : interp D) u, full u -> tm I u (replace_vars al x) = tm I (e_of I al u) x) /\
        (forall a, In a (targs (replace_vars al x)) -> is_tvar a = true -> In a (tv al)) /\
        (forall a, In a (syms (replace_vars al x)) -> In a (syms x) \/ alsym al a)).
    { intros x Hx. apply IH1; auto.
      - intros b Hb. apply Hh. right. apply in_flat_map. eauto.
      - intros b Hb. apply Ht. cbn. apply in_flat_map. eauto. }
    split; [apply term_ok_app; split; auto; rewrite Forall_forall; intros y Hy; apply in_map_iff in Hy as (x & <- & Hx); apply K; auto|].
    split; [|split].
    + intros D I u F. cbn [tm]. f_equal. rewrite map_map. apply map_ext_F. rewrite Forall_forall. intros x Hx. apply K; auto.
    + intros a Ha. cbn [targs] in Ha. apply in_flat_map in Ha as (y & Hy & Ha). apply in_map_iff in Hy as (x & <- & Hx). apply (K x Hx); auto.
    + intros a Ha. cbn [syms flat_map] in Ha. apply in_app_or in Ha as [Ha|Ha].
      * left. cbn. apply in_or_app. auto.
      * apply in_flat_map in Ha as (y & Hy & Ha). apply in_map_iff in Hy as (x & <- & Hx).
        destruct (K x Hx) as (_ & _ & _ & K4). destruct (K4 a Ha); auto. left. cbn. apply in_or_app. right. apply in_flat_map. eauto.
Qed.
Definition rep_good al f : Prop :=
  (forall D (I : interp D) u, full u -> (sem I u (replace_vars al f) <-> sem I (e_of I al u) f)) /\
  (forall a, In a (fargs (replace_vars al f)) -> is_tvar a = true -> In a (tv al)) /\
  (forall a, In a (syms (replace_vars al f)) -> In a (syms f) \/ alsym al a).
Lemma rep_atomic n k al f : al_ok n k al -> atomic f -> (forall h, In h (fheads f) -> lookup al h = None) ->
  (forall a, In a (fargs f) -> is_tvar a = true -> lookup al a <> None) ->
  atomic (replace_vars al f) /\ rep_good al f.
Proof.
  intros Ho A Hh Ht. destruct A as [a Ha|h args Sh Hargs].
  - rewrite (rep_atom n k); [|auto|apply Hh; left; auto]. split; [constructor; auto|]. unfold rep_good.
    rewrite (rep_atom n k); [|auto|apply Hh; left; auto]. split; [|split]; auto; [reflexivity|intros ? []].
  - assert (E : replace_vars al (Sl (Sa h :: args)) = Sl (Sa h :: map (replace_vars al) args)).
    { transitivity (Sl (replace_vars al (Sa h) :: map (replace_vars al) args)); [reflexivity|].
      rewrite (rep_atom n k); auto. apply Hh. destruct h; [destruct Sh|left; auto]. }
    rewrite fargs_app in Ht by auto. rewrite Forall_forall in Hargs.
    assert (K : forall x, In x args -> term_ok (replace_vars al x) /\
        (forall D (I : interp D) u, full u -> tm I u (replace_vars al x) = tm I (e_of I al u) x) /\
        (forall a, In a (targs (replace_vars al x)) -> is_tvar a = true -> In a (tv al)) /\
        (forall a, In a (syms (replace_vars al x)) -> In a (syms x) \/ alsym al a)).
    { intros x Hx. apply (rep_tm n k); auto.
      - intros b Hb. apply Hh. destruct h; [destruct Sh|]. cbn. right. apply in_flat_map. eauto.
      - intros b Hb. apply Ht. cbn. apply in_flat_map. eauto. }
    unfold rep_good. rewrite E. split; [constructor; auto; rewrite Forall_forall; intros y Hy; apply in_map_iff in Hy as (x & <- & Hx); apply K; auto|].
    split; [|split].
    + intros D I u F. rewrite !sem_app by auto. rewrite map_map.
      rewrite (map_ext_F (fun x => tm I u (replace_vars al x)) (tm I (e_of I al u)) args); [reflexivity|].
      rewrite Forall_forall. intros x Hx. apply K; auto.
    + intros a Ha. rewrite fargs_app in Ha by auto. apply in_flat_map in Ha as (y & Hy & Ha). apply in_map_iff in Hy as (x & <- & Hx). apply (K x Hx); auto.
    + intros a Ha. cbn [syms flat_map] in Ha. apply in_app_or in Ha as [Ha|Ha].
      * left. cbn. apply in_or_app. auto.
      * apply in_flat_map in Ha as (y & Hy & Ha). apply in_map_iff in Hy as (x & <- & Hx).
        destruct (K x Hx) as (_ & _ & _ & K4). destruct (K4 a Ha); auto. left. cbn. apply in_or_app. right. apply in_flat_map. eauto.
Qed.
Lemma rep_literal n k al f : al_ok n k al -> literal f -> (forall h, In h (fheads f) -> lookup al h = None) ->
  (forall a, In a (fargs f) -> is_tvar a = true -> lookup al a <> None) ->
  literal (replace_vars al f) /\ rep_good al f.
Proof.
  intros Ho [g A|g A] Hh Ht.
  - destruct (rep_atomic n k al g Ho A Hh Ht) as [A' G]. split; [constructor; auto|auto].
  - cbn [fheads fargs flat_map] in Hh, Ht. rewrite app_nil_r in Hh, Ht.
    destruct (rep_atomic n k al g Ho A Hh Ht) as [A' (G1 & G2 & G3)].
    change (replace_vars al (Sl [Sa (Con CNot); g])) with (Sl [Sa (Con CNot); replace_vars al g]).
    split; [apply L_neg; auto|]. unfold rep_good.
    change (replace_vars al (Sl [Sa (Con CNot); g])) with (Sl [Sa (Con CNot); replace_vars al g]).
    split; [|split].
    + intros D I u F. rewrite !sem_not. rewrite (G1 D I u F). reflexivity.
    + intros a Ha. cbn in Ha. rewrite app_nil_r in Ha. auto.
    + intros a Ha. cbn in *. rewrite app_nil_r in *. auto.
Qed.
Lemma sk_literal f al n k : literal f -> (forall h, In h (fheads f) -> lookup al h = None) ->
  skolemize f al n k = Some (replace_vars al f, n, k).
Proof.
  intros [g [a Ha|h args Sh _]|g A] Hh.
  - cbn. rewrite Hh by (left; auto). destruct (bindable a); reflexivity.
  - destruct h; [destruct Sh|]. destruct args; reflexivity.
  - reflexivity.
Qed.

(** * The whole transformation *)
Lemma xatom_range_dec n n' a : {xoff n n' a} + {exists i, n < i <= n' /\ a = xatom i}.
Proof.
  destruct (existsb (fun i => atom_eqb a (xatom i)) (seq (S n) (n' - n))) eqn:E.
  - right. apply existsb_exists in E as (i & Hi & E). apply in_seq in Hi. apply atom_eqb_eq in E. exists i. split; [lia|auto].
  - left. intros i Hi ->. assert (existsb (fun j => atom_eqb (xatom i) (xatom j)) (seq (S n) (n' - n)) = true); [|congruence].
    apply existsb_exists. exists i. split; [apply in_seq; lia|apply atom_eqb_eq; auto].
Defined.
Definition mix {D} n n' (u1 u2 : env D) : env D := fun a => if xatom_range_dec n n' a then u2 a else u1 a.

Definition sk_post (f f' : sx) (al : assoc) (n k n' k' : nat) : Prop :=
  n <= n' /\ k <= k' /\ qf f' /\
  (forall a, In a (fargs f') -> is_tvar a = true -> In a (tv al) \/ exists i, n < i <= n' /\ a = xatom i) /\
  (forall a, In a (syms f') -> In a (syms f) \/ (exists j, j <= k' /\ a = skatom j) \/ (exists i, i <= n' /\ a = xatom i)) /\
  (forall D (I : interp D) u, full u -> (forall u', full u' -> only n n' u u' -> sem I u' f') -> sem I (e_of I al u) f) /\
  (forall D (I : interp D), exists I', same_but (skN k k') I I' /\ forall u, full u -> sem I (e_of I al u) f -> sem I' u f').

Lemma alsym_form n k al a : al_ok n k al -> alsym al a -> (exists j, j <= k /\ a = skatom j) \/ (exists i, i <= n /\ a = xatom i).
Proof. intros Ho (v & t & Hin & Ha). destruct (Ho _ _ Hin) as [_ A]. eapply aval_syms; eauto. Qed.
Lemma only_le {D} n1 n1' n n' (u u' : env D) : n <= n1 -> n1' <= n' -> only n1 n1' u u' -> only n n' u u'.
Proof. intros H1 H2 O a Ha. apply O. intros i Hi. apply Ha. lia. Qed.
Lemma only_trans {D} n n' (u u1 u2 : env D) : only n n' u u1 -> only n n' u1 u2 -> only n n' u u2.
Proof. intros A B a Ha. rewrite B, A; auto. Qed.
Lemma xoff_le_tv n k al n' x : al_ok n k al -> In x (tv al) -> xoff n n' x.
Proof. intros Ho Hx i Hi ->. destruct (al_tv _ _ _ _ Ho Hx) as (j & Hj & E). apply xatom_inj in E. lia. Qed.

Section Sk.
Variable V : atom -> Prop.
Lemma skolemize_ok f : nnf true f -> forall al n k, al_ok n k al ->
  (forall v, In v (map fst al) -> V v) ->
  (forall b, In b (binders f) -> bindable b = true /\ V b) -> (forall h, In h (fheads f) -> ~ V h) ->
  (forall a, In a (fargs f) -> is_tvar a = true -> In a (map fst al)) ->
  (forall a i, In a (syms f) -> k < i -> a <> skatom i) ->
  exists f' n' k', skolemize f al n k = Some (f', n', k') /\ sk_post f f' al n k n' k'.
Proof.
  induction f as [a|l IH] using sx_ind2; intros N al n k Ho Hdom Hb Hh Ht Hf.
  all: assert (LIT : forall f, literal f -> (forall h, In h (fheads f) -> ~ V h) ->
    (forall a, In a (fargs f) -> is_tvar a = true -> In a (map fst al)) ->
    exists f' n' k', skolemize f al n k = Some (f', n', k') /\ sk_post f f' al n k n' k').
  1, 3: clear - Ho Hdom; intros f L Hh Ht;
    assert (Hh' : forall h, In h (fheads f) -> lookup al h = None) by (intros h H; apply lookup_none; intro K; apply (Hh h H); auto);
    assert (Ht' : forall a, In a (fargs f) -> is_tvar a = true -> lookup al a <> None) by (intros a Ha Ta K; apply lookup_none in K; apply K; auto);
    destruct (rep_literal n k al f Ho L Hh' Ht') as [L' (G1 & G2 & G3)];
    exists (replace_vars al f), n, k; (split; [apply sk_literal; auto|]);
    unfold sk_post; (split; [lia|]); (split; [lia|]); (split; [apply Q_lit; auto|]);
    (split; [intros a Ha Ta; left; auto|]);
    (split; [intros a Ha; destruct (G3 a Ha) as [K|K]; [left; auto|right; eapply alsym_form; eauto]|]);
    (split; [intros D I u F H; apply (G1 D I u F); apply H; [auto|intros ? _; auto]|]);
    intros D I; exists I; (split; [apply same_refl|]); intros u F H; apply (G1 D I u F); auto.
  - apply LIT; auto. inversion N; subst; auto.
  - destruct (nnf2_inv _ N) as [L|[(o & x & y & Hc & E & Nx & Ny)|(c & vs & b & Hc & E & Hsy & Nb)]]; [apply LIT; auto| |]; clear LIT.
    + injection E as ->. inversion IH as [|? ? _ IH1]; inversion IH1 as [|? ? IH2 IH3]; inversion IH3 as [|? ? IH4 _]; subst.
      rewrite binders_2 in Hb by auto. rewrite fheads_2 in Hh by auto. rewrite fargs_2 in Ht by auto. rewrite syms_2 in Hf.
      setoid_rewrite in_app_iff in Hb. setoid_rewrite in_app_iff in Hh. setoid_rewrite in_app_iff in Ht. setoid_rewrite in_app_iff in Hf.
      destruct (IH2 Nx al n k) as (x' & n1 & k1 & E1 & Hn1 & Hk1 & Q1 & T1 & Y1 & SN1 & CM1); auto.
      destruct (IH4 Ny al n1 k1) as (y' & n2 & k2 & E2 & Hn2 & Hk2 & Q2 & T2 & Y2 & SN2 & CM2); auto.
      { eapply al_ok_le; eauto. }
      { intros a i Ha Hi. apply Hf; auto. lia. }
      exists (Sl [Sa (Con o); x'; y']), n2, k2.
      split; [destruct Hc as [-> | ->]; cbn; rewrite E1, E2; reflexivity|].
      unfold sk_post. rewrite fargs_2, !syms_2 by auto.
      split; [lia|]. split; [lia|]. split; [apply Q_two; auto|]. split; [|split; [|split]].
      * intros a Ha Ta. apply in_app_or in Ha as [Ha|Ha].
        -- destruct (T1 a Ha Ta) as [?|(i & Hi & ->)]; auto. right. exists i. split; [lia|auto].
        -- destruct (T2 a Ha Ta) as [?|(i & Hi & ->)]; auto. right. exists i. split; [lia|auto].
      * intros a Ha. rewrite in_app_iff. apply in_app_or in Ha as [Ha|Ha].
        -- destruct (Y1 a Ha) as [?|[(j & Hj & ->)|(j & Hj & ->)]]; auto; right; [left|right]; exists j; split; auto; lia.
        -- destruct (Y2 a Ha) as [?|[(j & Hj & ->)|(j & Hj & ->)]]; auto; right; [left|right]; exists j; split; auto; lia.
      * intros D I u F H. destruct Hc as [-> | ->].
        -- rewrite sem_and2. split; [apply SN1|apply SN2]; auto; intros u' F' O'.
           ++ assert (K : sem I u' (Sl [Sa (Con CAnd); x'; y'])) by (apply H; auto; eapply only_le; [| |exact O']; lia).
              apply sem_and2 in K. tauto.
           ++ assert (K : sem I u' (Sl [Sa (Con CAnd); x'; y'])) by (apply H; auto; eapply only_le; [| |exact O']; lia).
              apply sem_and2 in K. tauto.
        -- rewrite sem_or2. apply NNPP. intro K.
           assert (K1 : exists u1, full u1 /\ only n n1 u u1 /\ ~ sem I u1 x').
           { apply NNPP. intro K1. apply K. left. apply SN1; auto. intros u' F' O'. apply NNPP. intro. apply K1. eauto. }
           assert (K2 : exists u2, full u2 /\ only n1 n2 u u2 /\ ~ sem I u2 y').
           { apply NNPP. intro K2. apply K. right. apply SN2; auto. intros u' F' O'. apply NNPP. intro. apply K2. eauto. }
           destruct K1 as (u1 & F1 & O1 & X1). destruct K2 as (u2 & F2 & O2 & X2).
           assert (FM : full (mix n n1 u1 u2)).
           { intro a. unfold mix. destruct (xatom_range_dec n n1 a); [apply F2|apply F1]. }
           assert (K3 : sem I (mix n n1 u1 u2) (Sl [Sa (Con COr); x'; y'])).
           { apply H; auto. intros a Ha. unfold mix. destruct (xatom_range_dec n n1 a) as [R|(i & Hi & ->)].
             - apply O2. intros i Hi. apply Ha. lia.
             - exfalso. apply (Ha i); [lia|auto]. }
           apply sem_or2 in K3 as [K3|K3]; [apply X1|apply X2].
           ++ eapply sem_ext; [|exact K3]. intros a Ha. destruct (is_tvar a) eqn:Ta; [|rewrite !full_none; auto].
              unfold mix. destruct (xatom_range_dec n n1 a) as [R|R]; [|reflexivity].
              destruct (T1 a Ha Ta) as [Hx|(i & Hi & ->)]; [|exfalso; apply (R i); auto].
              rewrite O1 by auto. symmetry. apply O2. intros i Hi ->. destruct (al_tv _ _ _ _ Ho Hx) as (j & Hj & E). apply xatom_inj in E. lia.
           ++ eapply sem_ext; [|exact K3]. intros a Ha. destruct (is_tvar a) eqn:Ta; [|rewrite !full_none; auto].
              unfold mix. destruct (xatom_range_dec n n1 a) as [R|(i & Hi & ->)]; [reflexivity|].
              exfalso. destruct (T2 _ Ha Ta) as [Hx|(j & Hj & E)]; [|apply xatom_inj in E; lia].
              destruct (al_tv _ _ _ _ Ho Hx) as (j & Hj & E). apply xatom_inj in E. lia.
      * intros D I. destruct (CM1 D I) as (I1 & S1 & C1). destruct (CM2 D I1) as (I2 & S2 & C2). exists I2. split.
        { eapply same_trans; [exact S1|exact S2|]. intros a [(i & Hi & ->)|(i & Hi & ->)]; exists i; split; auto; lia. }
        intros u F H.
        assert (CX : sem I (e_of I al u) x -> sem I2 u x').
        { intro K. apply (C1 u F) in K. apply (sem_same (skN k1 k2) I1 I2); [exact S2|apply skN_con| |exact K].
          intros a Ha (i & Hi & ->). destruct (Y1 _ Ha) as [Q|[(j & Hj & E)|(j & Hj & E)]].
          - apply (Hf _ i (or_introl Q)); auto. lia.
          - apply skatom_inj in E. lia.
          - discriminate E. }
        assert (CY : sem I (e_of I al u) y -> sem I2 u y').
        { intro K. apply C2; auto.
          apply (sem_same (skN k k1) I I1) in K; [|exact S1|apply skN_con|].
          - eapply sem_ext; [|exact K]. intros a _. symmetry. eapply e_of_same; eauto.
          - intros a Ha (i & Hi & ->). apply (Hf _ i (or_intror Ha)); auto. lia. }
        destruct Hc as [-> | ->]; [rewrite sem_and2 in *|rewrite sem_or2 in *]; tauto.
    + unfold Qf in E. injection E as ->. inversion IH as [|? ? _ IH1]; inversion IH1 as [|? ? IH2 IH3]; inversion IH3 as [|? ? IH4 _]; subst.
      rewrite binders_q in Hb by auto. change (Sl [Sa (Con c); Sl (map Sa vs); b]) with (Qf c vs b) in *.
      rewrite fheads_q in Hh by auto. setoid_rewrite in_app_iff in Hb.
      assert (Hf' : forall a i, In a vs \/ In a (syms b) -> k < i -> a <> skatom i).
      { intros a i Ha. apply Hf. unfold Qf. rewrite syms_q by auto. apply in_or_app; auto. }
      assert (Hbv : Forall (fun v => bindable v = true) vs) by (rewrite Forall_forall; intros v Hv; apply Hb; auto).
      destruct (append_total al vs Hbv al (match c with CAll => true | _ => false end) n k) as (al' & n1 & k1 & EA).
      destruct (append_al_ok _ _ _ _ _ _ _ _ Hbv Ho EA) as [Ho' HT].
      destruct (append_mono _ _ _ _ _ _ _ _ _ EA) as (Hn1 & Hk1 & He & Hl & Hd & _).
      destruct (IH4 Nb al' n1 k1) as (b' & n2 & k2 & E2 & Hn2 & Hk2 & Q2 & T2 & Y2 & SN2 & CM2); auto.
      { intros v Hv. apply Hd in Hv as [Hv|Hv]; auto. apply Hb; auto. }
      { intros a Ha Ta. apply Hd. destruct (in_dec atom_eq_dec a vs); auto. right. apply Ht; auto. apply fargs_q; auto. }
      { intros a i Ha Hi. apply Hf'; auto. lia. }
      exists b', n2, k2. split; [destruct Hc as [-> | ->]; cbn [skolemize Qf var_list]; rewrite atoms_of_map, EA; exact E2|].
      unfold sk_post. split; [lia|]. split; [lia|]. split; [auto|]. split; [|split; [|split]].
      * intros a Ha Ta. destruct (T2 a Ha Ta) as [Hx|(i & Hi & ->)].
        -- destruct (al_tv _ _ _ _ Ho' Hx) as (i & Hi & ->). destruct (le_lt_dec i n) as [Hin|Hin]; [|right; exists i; split; [lia|auto]].
           left. apply tv_in in Hx as (v & s & Hin' & Es).
           destruct (append_mono _ _ _ _ _ _ _ _ _ EA) as (_ & _ & _ & _ & _ & add & -> & Hadd).
           apply in_app_or in Hin' as [Hin'|Hin'].
           ++ exfalso. destruct (Hadd _ _ Hin') as [_ K]. destruct Hc as [-> | ->].
              ** destruct K as (j & Hj & E). injection E as E. apply dec_inj in E. lia.
              ** destruct K as (j & Hj & E). rewrite skolem_term_eq in E. destruct (rev (tv al)); discriminate E.
           ++ apply tv_in. eauto.
        -- right. exists i. split; [lia|auto].
      * intros a Ha. unfold Qf. rewrite syms_q by auto. rewrite in_app_iff. destruct (Y2 a Ha) as [?|?]; auto.
      * intros D I u F H. destruct Hc as [-> | ->].
        -- apply sem_all. intros e' Ve.
           destruct (append_all_env al vs e' (fun v Hv => proj1 (Ve v) Hv) _ _ _ _ _ _ u EA F) as (u' & F' & O' & A').
           assert (EQ : forall a, e_of I al' u' a = e' a).
           { intro a. destruct (in_dec atom_eq_dec a vs) as [Hin|Hin].
             - destruct (A' a Hin) as (i & Hi & L & U). unfold e_of. rewrite L. cbn [option_map tm].
               pose proof (proj1 (Ve a) Hin) as NN. rewrite U. destruct (e' a); [reflexivity|tauto].
             - rewrite (proj2 (Ve a) Hin).
               assert (K : e_of I al' u' a = e_of I al u' a) by (unfold e_of; rewrite Hl; auto).
               rewrite K. eapply e_of_dep; eauto. intros x Hx. apply O'. eapply xoff_le_tv; eauto. }
           eapply sem_ext; [intros a _; symmetry; apply EQ|]. apply SN2; auto.
           intros u2 F2 O2. apply H; auto. eapply only_trans; eapply only_le; [| |exact O'| | |exact O2]; lia.
        -- apply sem_ex. exists (e_of I al' u). split.
           ++ intro a. split; intro Hin.
              ** unfold e_of. destruct (lookup al' a) eqn:L; [discriminate|]. apply lookup_none in L. exfalso. apply L. apply Hd; auto.
              ** unfold e_of. rewrite Hl; auto.
           ++ apply SN2; auto. intros u' F' O'. apply H; auto. eapply only_le; [| |exact O']; lia.
      * intros D I. destruct Hc as [-> | ->].
        -- destruct (CM2 D I) as (I' & S' & C'). exists I'. split; [eapply same_le; [exact S'|]; intros a (i & Hi & ->); exists i; split; auto; lia|].
           intros u F H. apply C'; auto. rewrite sem_all in H. apply H.
           intro a. split; intro Hin.
           ++ unfold e_of. destruct (lookup al' a) eqn:L; [discriminate|]. apply lookup_none in L. exfalso. apply L. apply Hd; auto.
           ++ unfold e_of. rewrite Hl; auto.
        -- pose (R := fun (ds : list D) (e' : env D) => exists u, full u /\ map (tm I u) (univ_vars al) = ds /\
              avariant vs (e_of I al u) e' /\ sem I e' b).
           pose (G := fun ds => epsilon (inhabits (none (D := D))) (R ds)).
           pose (W := fun ds a => match G ds a with Some d => d | None => cst I (Con CNot) end).
           destruct (append_ex_interp n k al vs W Ho _ _ _ _ _ _ I EA) as (I1 & S1 & A1).
           destruct (CM2 D I1) as (I2 & S2 & C2). exists I2. split.
           { eapply same_trans; [exact S1|exact S2|]. intros a [(i & Hi & ->)|(i & Hi & ->)]; exists i; split; auto; lia. }
           intros u F H. rewrite sem_ex in H. destruct H as (e0 & V0 & H0).
           assert (RG : R (map (tm I u) (univ_vars al)) (G (map (tm I u) (univ_vars al)))).
           { apply epsilon_spec. exists e0, u. auto. }
           destruct RG as (u0 & F0 & EQ & VG & HG).
           assert (UE : forall x, In x (tv al) -> u0 x = u x).
           { rewrite univ_vars_eq, !map_map in EQ. intros x Hx. apply in_rev in Hx.
             assert (Tx : is_tvar x = true) by (eapply al_tvar; [exact Ho|apply in_rev; auto]).
             assert (K : tm I u0 (Sa x) = tm I u (Sa x)).
             { clear - EQ Hx. induction (rev (tv al)) as [|z r IHr]; [destruct Hx|]. injection EQ as E1 E2. destruct Hx as [<-|Hx]; auto. }
             cbn in K. destruct (full_some u0 x F0 Tx) as [d0 X0], (full_some u x F Tx) as [d1 X1]. rewrite X0, X1 in *. congruence. }
           assert (EE : forall a, e_of I1 al' u a = G (map (tm I u) (univ_vars al)) a).
           { intro a. destruct (in_dec atom_eq_dec a vs) as [Hin|Hin].
             - destruct (A1 a Hin) as (j & Hj & L & U). unfold e_of at 1. rewrite L. cbn [option_map]. rewrite U by auto.
               unfold W. pose proof (proj1 (VG a) Hin) as NN. destruct (G (map (tm I u) (univ_vars al)) a); [reflexivity|tauto].
             - rewrite (proj2 (VG a) Hin).
               assert (K : e_of I1 al' u a = e_of I1 al u a) by (unfold e_of; rewrite Hl; auto).
               rewrite K. rewrite <- (e_of_same I I1 n k k1 al u Ho S1). symmetry. eapply e_of_dep; eauto. }
           apply C2; auto. eapply sem_ext; [intros a _; apply EE|].
           apply (sem_same (skN k k1) I I1); [exact S1|apply skN_con| |exact HG].
           intros a Ha (i & Hi & ->). apply (Hf' _ i (or_intror Ha)); auto. lia.
Qed.
End Sk.
