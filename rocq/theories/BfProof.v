(** Proofs about built-in equality, list and string functions. *)
From Coq Require Import ZArith Bool Lia Ascii String List.
From Verif Require Import Terms UnifyModel MatchModel MatchProof EncModel Semantics BfModel BfSpec.
Import ListNotations.
Open Scope string_scope.
Open Scope Z_scope.

Lemma small_iff w : issmallint w = (w mod 8 =? 3).
Proof. unfold issmallint. change 7 with (Z.ones 3). rewrite Z.land_ones by lia. reflexivity. Qed.
Lemma anon_iff w : (Z.land w 255 =? 95) = (w mod 256 =? 95).
Proof. change 255 with (Z.ones 8). rewrite Z.land_ones by lia. reflexivity. Qed.
Lemma decode_small w : decode_smallint w = w / 8.
Proof. unfold decode_smallint, Word64.shr. rewrite Z.shiftr_div_pow2 by lia. reflexivity. Qed.

Section Bf.
  Variable sym : Z -> longv.
  Variable sb : stray_env.

  (** ** Constants *)
  Definition numeric (d : dval) : bool := match d with DInt _ | DReal _ => true | _ => false end.
  Definition atomic (d : dval) : bool := match d with DStr _ | DNil => true | _ => false end.

  Lemma num_val c : is_num (ctype_of sym c) = true -> exists d, cval sym c = Some d /\ numeric d = true.
  Proof.
    destruct c as [w|z|x|bs|o]; cbn [ctype_of cval]; unfold imm_type; intros H; try discriminate H.
    - rewrite small_iff in H. destruct (w mod 8 =? 3); [eauto|].
      destruct (Z.land w 255 =? 95); discriminate H.
    - eauto.
    - eauto.
    - destruct (sym o); discriminate H.
  Qed.

  Lemma uri_val (R : reserved sym) c : uri_is_list sym (TCst c) || is_unique sym (TCst c) = true ->
    exists d, cval sym c = Some d /\ atomic d = true.
  Proof.
    unfold uri_is_list, is_unique, uri_of. destruct c as [w|z|x|bs|o]; try discriminate.
    cbn [cval]. destruct (sym o) as [p n|] eqn:E; try discriminate.
    intros H. apply orb_prop in H as [H|H].
    - apply String.eqb_eq in H. subst n. destruct (R _ _ _ E (or_intror eq_refl)) as [->| ->]; cbn; eauto.
    - destruct p as [p|]; [|discriminate]. rewrite H. eauto.
  Qed.

  Lemma other_val c : ctype_of sym c = YOther -> cval sym c = Some (DOther c).
  Proof.
    destruct c as [w|z|x|bs|o]; cbn [ctype_of cval]; unfold imm_type; intros H; try discriminate H.
    - rewrite small_iff, anon_iff in H. destruct (w mod 8 =? 3); [discriminate|].
      destruct (w mod 256 =? 95); [discriminate|reflexivity].
    - reflexivity.
    - destruct (sym o); [discriminate H|reflexivity].
  Qed.

  Lemma cval_inj (I : interned sym) c c' d : well_made sym (TCst c) -> well_made sym (TCst c') ->
    cval sym c = Some d -> cval sym c' = Some d -> c = c'.
  Proof.
    intros W W' H H'.
    destruct c as [w|z|x|bs|o], c' as [w'|z'|x'|bs'|o']; cbn [cval well_made] in *;
      repeat match goal with
         | H : (if ?b then _ else _) = Some _ |- _ => destruct b eqn:?
         | H : match sym ?o with _ => _ end = Some _ |- _ => destruct (sym o) as [[?|] ?|] eqn:?
         end; try discriminate;
         repeat match goal with H : Some _ = Some _ |- _ => injection H as H end; subst; try discriminate; try congruence.
    all: repeat match goal with
         | H : (_ =? _)%Z = true |- _ => apply Z.eqb_eq in H
         | H : String.eqb _ _ = true |- _ => apply String.eqb_eq in H end; subst.
    all: repeat match goal with H : DInt _ = DInt _ |- _ => injection H as H | H : DStr _ = DStr _ |- _ => injection H as H end; subst.
    - f_equal. pose proof (Z.div_mod w 8 ltac:(lia)). pose proof (Z.div_mod w' 8 ltac:(lia)). lia.
    - exfalso. assert (- 2 ^ 60 <= w / 8 < 2 ^ 60) by (split; [apply Z.div_le_lower_bound|apply Z.div_lt_upper_bound]; lia). lia.
    - exfalso. assert (- 2 ^ 60 <= w' / 8 < 2 ^ 60) by (split; [apply Z.div_le_lower_bound|apply Z.div_lt_upper_bound]; lia). lia.
    - f_equal. eapply I; eassumption.
    - f_equal. eapply I; eassumption.
  Qed.

  (** ** Lists *)
  Lemma list_rec (R : reserved sym) t : well_made sym t -> is_list sym t = true ->
    exists h x y, t = TRec [TCst h; x; y] /\ named sym (TCst h) None "$list" /\ well_made sym x /\ well_made sym y.
  Proof.
    intros W H. destruct t as [| |[|h [|x [|y [|? ?]]]]]; try discriminate.
    cbn [is_list] in H. unfold is_list_sym, uri_of in H. destruct h as [|[| | | |o]|]; try discriminate.
    destruct (sym o) as [p n|] eqn:E; try discriminate. apply String.eqb_eq in H. subst n.
    cbn [well_made] in W. destruct W as [N [_ [Wx [Wy _]]]].
    exists (CLong o), x, y. split; [reflexivity|]. split; [|split; assumption].
    destruct (R _ _ _ E (or_introl eq_refl)) as [->| ->].
    - exists o. auto.
    - exfalso. apply (N "$list"). exists o. auto.
  Qed.

  Lemma list_sym_same (I : interned sym) h h' : named sym (TCst h) None "$list" -> named sym (TCst h') None "$list" -> h = h'.
  Proof. intros [o [E1 E2]] [o' [E1' E2']]. injection E1 as ->. injection E1' as ->. f_equal. eapply I; eassumption. Qed.

  Lemma equal_sound (I : interned sym) (R : reserved sym) (M : interp) (S : standard sym M) v a : forall b,
    well_made sym a -> well_made sym b ->
    (equal_terms sym sb a b = VTrue -> eval M v a = eval M v b) /\
    (equal_terms sym sb a b = VFalse -> eval M v a <> eval M v b).
  Proof.
    assert (DC : forall c c' d d', well_made sym (TCst c) -> well_made sym (TCst c') -> TCst c <> TCst c' ->
      cval sym c = Some d -> cval sym c' = Some d' -> eval M v (TCst c) <> eval M v (TCst c')).
    { intros c c' d d' W W' N H H'. cbn [eval]. apply (st_differ _ _ S) with d d'; auto.
      intros ->. apply N. f_equal. eapply cval_inj; eauto. }
    induction a as [i|c|fs IH] using term_ind'; intros b Wa Wb.
    - pose proof (equal_term_spec sb (TVar i) b) as Q. cbn [equal_terms].
      destruct (equal_term sb (TVar i) b); split; intros H; try discriminate H.
      now rewrite Q.
    - pose proof (equal_term_spec sb (TCst c) b) as Q. cbn [equal_terms].
      destruct (equal_term sb (TCst c) b); [split; intros H; [now rewrite Q|discriminate H]| |split; discriminate].
      destruct b as [j|c'|gs]; [split; discriminate| |].
      + cbn [type_of is_rec andb orb is_list]. rewrite !andb_false_r. cbn [orb].
        split; intros H.
        * exfalso. repeat match type of H with (if ?b then _ else _) = _ => destruct b end; try discriminate H.
        * destruct (is_num (ctype_of sym c') && (is_uri (ctype_of sym c) && (uri_is_list sym (TCst c) || is_unique sym (TCst c)))) eqn:B1.
          { apply andb_prop in B1 as [B1 B2]. apply andb_prop in B2 as [_ B2].
            destruct (num_val _ B1) as (d' & E' & _), (uri_val R _ B2) as (d & E & _). eauto. }
          destruct (is_num (ctype_of sym c) && (is_uri (ctype_of sym c') && (uri_is_list sym (TCst c') || is_unique sym (TCst c')))) eqn:B2.
          { apply andb_prop in B2 as [B2 B3]. apply andb_prop in B3 as [_ B3].
            destruct (num_val _ B2) as (d & E & _), (uri_val R _ B3) as (d' & E' & _). eauto. }
          destruct (is_uri (ctype_of sym c) && is_uri (ctype_of sym c') && (uri_is_list sym (TCst c) || is_unique sym (TCst c)) &&
            (uri_is_list sym (TCst c') || is_unique sym (TCst c'))) eqn:B3.
          { apply andb_prop in B3 as [B3 B5]. apply andb_prop in B3 as [_ B4].
            destruct (uri_val R _ B4) as (d & E & _), (uri_val R _ B5) as (d' & E' & _). eauto. }
          cbn [is_rec orb] in H.
          assert (V : forall x, ctype_of sym x <> YVar /\ ctype_of sym x <> YRec).
          { intros x; destruct x as [w| | | |o]; cbn; unfold imm_type; try (split; discriminate);
              [destruct (issmallint w), (Z.land w 255 =? 95)|destruct (sym o)]; split; discriminate. }
          assert (G : forall x, is_uri (ctype_of sym x) = false -> is_anon (ctype_of sym x) = false -> exists d, cval sym x = Some d).
          { intros x H1 H2. pose proof (V x) as [V1 V2]. destruct (ctype_of sym x) eqn:T; try discriminate; try congruence.
            - destruct (num_val x) as (d & E & _); [now rewrite T|eauto].
            - destruct (num_val x) as (d & E & _); [now rewrite T|eauto].
            - eexists. apply other_val, T. }
          destruct (is_uri (ctype_of sym c)) eqn:U1, (is_anon (ctype_of sym c)) eqn:A1, (is_uri (ctype_of sym c')) eqn:U2,
            (is_anon (ctype_of sym c')) eqn:A2; cbn [orb andb] in H; rewrite ?andb_false_r in H; cbn in H; try discriminate H.
          all: try (destruct (is_rec (ctype_of sym c)), (is_rec (ctype_of sym c')); discriminate H).
          destruct (G c U1 A1) as [d E], (G c' U2 A2) as [d' E']. eauto.
      + cbn [type_of is_rec is_uri is_anon is_num].
        rewrite !andb_false_l, !andb_false_r, !andb_true_l. cbn [orb].
        assert (D : is_list sym (TRec gs) = true -> (exists d, cval sym c = Some d) -> eval M v (TCst c) <> eval M v (TRec gs)).
        { intros L [d E]. destruct (list_rec R _ Wb L) as (h & x & y & -> & Nh & _).
          cbn [eval map]. intros K. exact (st_atomic _ _ S h _ _ c d Nh E (eq_sym K)). }
        split; intros H.
        * exfalso. repeat match type of H with (if ?b then _ else _) = _ => destruct b end; try discriminate H.
        * rewrite ?orb_false_r, ?orb_true_r, ?andb_false_r in H.
          destruct (is_num (ctype_of sym c) && is_list sym (TRec gs)) eqn:B1.
          { apply andb_prop in B1 as [B1 B2]. apply D; auto. destruct (num_val _ B1) as (d & E & _); eauto. }
          cbn [andb orb] in H.
          match type of H with (if ?b then _ else _) = _ => destruct b eqn:B2 end.
          { repeat match goal with H : _ && _ = true |- _ => apply andb_prop in H as [? ?] end.
            apply D; auto. destruct (uri_val R c) as (d & E & _); eauto. }
          cbn [orb andb] in H. repeat match type of H with (if ?b then _ else _) = _ => destruct b end; discriminate H.
    - pose proof (equal_term_spec sb (TRec fs) b) as Q. cbn [equal_terms].
      destruct (equal_term sb (TRec fs) b); [split; intros H; [now rewrite Q|discriminate H]| |split; discriminate].
      destruct b as [j|c'|gs]; [split; discriminate| |].
      + cbn [type_of is_rec is_uri is_anon is_num].
        rewrite ?andb_false_l, ?andb_false_r, ?andb_true_l, ?orb_false_r.
        assert (D : is_list sym (TRec fs) = true -> (exists d, cval sym c' = Some d) -> eval M v (TRec fs) <> eval M v (TCst c')).
        { intros L [d E]. destruct (list_rec R _ Wa L) as (h & x & y & -> & Nh & _).
          cbn [eval map]. exact (st_atomic _ _ S h _ _ c' d Nh E). }
        split; intros H.
        * exfalso. repeat match type of H with (if ?b then _ else _) = _ => destruct b end; try discriminate H.
        * match type of H with (if ?b then _ else _) = _ => destruct b eqn:B1 end.
          { apply andb_prop in B1 as [B1 B2]. apply D; auto. destruct (num_val _ B1) as (d & E & _); eauto. }
          match type of H with (if ?b then _ else _) = _ => destruct b eqn:B2 end.
          { repeat match goal with H : _ && _ = true |- _ => apply andb_prop in H as [? ?] end.
            apply D; auto. destruct (uri_val R c') as (d & E & _); eauto. }
          cbn [orb andb] in H. repeat match type of H with (if ?b then _ else _) = _ => destruct b end; discriminate H.
      + cbn [type_of is_rec is_uri is_anon is_num andb orb].
        destruct (is_list sym (TRec fs)) eqn:L1, (is_list sym (TRec gs)) eqn:L2; cbn [andb orb]; try (split; discriminate).
        destruct (list_rec R _ Wa L1) as (h & x & y & Ea & Nh & Wx & Wy). injection Ea as ->.
        destruct (list_rec R _ Wb L2) as (h' & x' & y' & Eb & Nh' & Wx' & Wy'). injection Eb as ->.
        pose proof (list_sym_same I _ _ Nh Nh'). subst h'.
        pose proof (Forall_inv (Forall_inv_tail IH)) as IHx.
        pose proof (Forall_inv (Forall_inv_tail (Forall_inv_tail IH))) as IHy.
        destruct (IHx x' Wx Wx') as [Tx Fx], (IHy y' Wy Wy') as [Ty Fy].
        split; intros H.
        * destruct (equal_terms sym sb x x'); try discriminate H.
          cbn [eval map]. rewrite (Tx eq_refl), (Ty H). reflexivity.
        * cbn [eval map]. intros K. destruct (st_cons _ _ S _ _ _ _ _ Nh K) as [K1 K2].
          destruct (equal_terms sym sb x x'); try discriminate H; [exact (Fy H K2)|exact (Fx eq_refl K1)].
  Qed.

  (** ** Values *)
  Lemma val_num c d : cval sym c = Some d -> numeric d = true -> ctype_of sym c = YInt \/ ctype_of sym c = YDouble.
  Proof.
    destruct c as [w|z|x|bs|o]; cbn [cval ctype_of]; unfold imm_type; intros H N; auto.
    - rewrite small_iff. destruct (w mod 8 =? 3); [auto|]. destruct (w mod 256 =? 95); [discriminate|].
      injection H as <-. discriminate.
    - injection H as <-. discriminate.
    - destruct (sym o) as [[p|] n|].
      + destruct (String.eqb p "#"); [injection H as <-; discriminate|discriminate].
      + destruct (String.eqb n "$nil"); [injection H as <-; discriminate|discriminate].
      + injection H as <-. discriminate.
  Qed.

  Lemma val_atomic c d : cval sym c = Some d -> atomic d = true ->
    ctype_of sym c = YUri /\ uri_is_list sym (TCst c) || is_unique sym (TCst c) = true.
  Proof.
    destruct c as [w|z|x|bs|o]; cbn [cval ctype_of]; intros H N.
    - destruct (w mod 8 =? 3); [injection H as <-; discriminate|]. destruct (w mod 256 =? 95); [discriminate|].
      injection H as <-. discriminate.
    - injection H as <-. discriminate.
    - injection H as <-. discriminate.
    - injection H as <-. discriminate.
    - unfold uri_is_list, is_unique, uri_of. destruct (sym o) as [[p|] n|].
      + destruct (String.eqb p "#"); [|discriminate]. rewrite orb_true_r. auto.
      + destruct (String.eqb n "$nil"); [|discriminate]. auto.
      + injection H as <-. discriminate.
  Qed.

  Lemma cst_value c d : cval sym c = Some d -> (forall c', d <> DOther c') -> numeric d = true \/ atomic d = true.
  Proof.
    intros H N. destruct d; cbn; auto.
    - exfalso. destruct c as [w|z|u|bs|o]; cbn [cval] in H; try discriminate.
      + destruct (w mod 8 =? 3); [discriminate|]. destruct (w mod 256 =? 95); discriminate.
      + destruct (sym o) as [[p|] n|]; [destruct (String.eqb p "#")|destruct (String.eqb n "$nil")|]; discriminate.
    - exfalso. exact (N c0 eq_refl).
  Qed.

  Lemma writes_fun t d d' : writes sym t d -> writes sym t d' -> d = d'.
  Proof.
    intros H. revert d'. induction H as [c d H N|h x y dx dy Nh Hx IHx Hy IHy]; intros d' H'; inversion H'; subst.
    - congruence.
    - f_equal; auto.
  Qed.

  Lemma writes_inj (I : interned sym) a d : writes sym a d -> forall b, well_made sym a -> well_made sym b -> writes sym b d -> a = b.
  Proof.
    intros H. induction H as [c d H N|h x y dx dy Nh Hx IHx Hy IHy]; intros b Wa Wb H'.
    - inversion H' as [c' d0 Hc _|h' x' y' dx' dy' Nh' Hx' Hy']; subst.
      + f_equal. eapply cval_inj; eauto.
      + destruct (cst_value _ _ H N); discriminate.
    - inversion H' as [c' d0 Hc Nc|h' x' y' dx' dy' Nh' Hx' Hy']; subst.
      + destruct (cst_value _ _ Hc Nc); discriminate.
      + cbn [well_made] in Wa, Wb. destruct Wa as (_ & _ & Wx & Wy & _), Wb as (_ & _ & Wx' & Wy' & _).
        destruct Nh as (o & -> & Eo), Nh' as (o' & -> & Eo').
        rewrite (I _ _ _ _ Eo Eo'), (IHx x'), (IHy y'); auto.
  Qed.

  Lemma list_is h x y : named sym h None "$list" -> is_list sym (TRec [h; x; y]) = true.
  Proof. intros (o & -> & E). cbn [is_list]. unfold is_list_sym, uri_of. rewrite E. reflexivity. Qed.

  Lemma equal_decides (I : interned sym) (Hsb : forall c, sb c = true) a da : writes sym a da ->
    forall b db, well_made sym a -> well_made sym b -> writes sym b db ->
    (da = db -> equal_terms sym sb a b = VTrue) /\ (da <> db -> equal_terms sym sb a b = VFalse).
  Proof.
    intros Ha. induction Ha as [c d H N|h x y dx dy Nh Hx IHx Hy IHy]; intros b db Wa Wb Hb.
    - split; intros D.
      + subst db. rewrite <- (writes_inj I _ _ (w_cst sym c d H N) b Wa Wb Hb). cbn [equal_terms].
        rewrite equal_term_refl. reflexivity.
      + pose proof (equal_term_spec sb (TCst c) b) as Q. pose proof (equal_term_nostray sb Hsb (TCst c) b) as Q'.
        cbn [equal_terms]. destruct (equal_term sb (TCst c) b); [|clear Q Q'|congruence].
        { exfalso. subst b. apply D. eapply writes_fun; [apply (w_cst sym c d H N)|exact Hb]. }
        inversion Hb as [c' d0 Hc Nc|h' x' y' dx' dy' Nh' Hx' Hy']; subst.
        * cbn [type_of is_rec].
          destruct (cst_value _ _ H N) as [K|K], (cst_value _ _ Hc Nc) as [K'|K'].
          -- destruct (val_num _ _ H K) as [-> | ->], (val_num _ _ Hc K') as [-> | ->]; reflexivity.
          -- destruct (val_atomic _ _ Hc K') as [-> ->]. destruct (val_num _ _ H K) as [-> | ->]; reflexivity.
          -- destruct (val_atomic _ _ H K) as [-> ->]. destruct (val_num _ _ Hc K') as [-> | ->]; reflexivity.
          -- destruct (val_atomic _ _ H K) as [-> ->]. destruct (val_atomic _ _ Hc K') as [-> ->]. reflexivity.
        * rewrite (list_is h' x' y' Nh'). cbn [type_of is_rec].
          destruct (cst_value _ _ H N) as [K|K].
          -- destruct (val_num _ _ H K) as [-> | ->]; reflexivity.
          -- destruct (val_atomic _ _ H K) as [-> ->]. reflexivity.
    - split; intros D.
      + subst db. rewrite <- (writes_inj I _ _ (w_list sym h x y dx dy Nh Hx Hy) b Wa Wb Hb). cbn [equal_terms].
        rewrite equal_term_refl. reflexivity.
      + pose proof (equal_term_spec sb (TRec [h; x; y]) b) as Q. pose proof (equal_term_nostray sb Hsb (TRec [h; x; y]) b) as Q'.
        cbn [equal_terms]. destruct (equal_term sb (TRec [h; x; y]) b); [|clear Q Q'|congruence].
        { exfalso. subst b. apply D. eapply writes_fun; [apply (w_list sym h x y dx dy Nh Hx Hy)|exact Hb]. }
        rewrite (list_is h x y Nh).
        inversion Hb as [c' d0 Hc Nc|h' x' y' dx' dy' Nh' Hx' Hy']; subst.
        * cbn [type_of is_rec].
          destruct (cst_value _ _ Hc Nc) as [K|K].
          -- destruct (val_num _ _ Hc K) as [-> | ->]; reflexivity.
          -- destruct (val_atomic _ _ Hc K) as [-> ->]. reflexivity.
        * rewrite (list_is h' x' y' Nh'). cbn [type_of is_rec is_num is_uri is_anon andb orb].
          cbn [well_made] in Wa, Wb. destruct Wa as (_ & _ & Wx & Wy & _), Wb as (_ & _ & Wx' & Wy' & _).
          destruct (IHx x' dx' Wx Wx' Hx') as [Tx Fx], (IHy y' dy' Wy Wy' Hy') as [Ty Fy].
          assert (DE : {dx = dx'} + {dx <> dx'}).
          { destruct (term_eq_dec x x') as [->|n]; [left; eapply writes_fun; eassumption|].
            right. intros ->. apply n. exact (writes_inj I _ _ Hx x' Wx Wx' Hx'). }
          destruct DE as [->|DE].
          -- rewrite (Tx eq_refl). apply Fy. congruence.
          -- rewrite (Fx DE). reflexivity.
  Qed.

  (** ** Strings *)
  Lemma prefix_occurs a b : String.prefix a b = true <-> exists w, b = a ++ w.
  Proof.
    revert b. induction a as [|c a IH]; intros b.
    - cbn. destruct b; split; eauto.
    - destruct b as [|c' b]; cbn.
      + split; [discriminate|intros (w & E); discriminate E].
      + destruct (ascii_dec c c') as [->|n].
        * rewrite IH. split; intros (w & E); exists w; [now rewrite E|injection E as ->; reflexivity].
        * split; [discriminate|intros (w & E); injection E; congruence].
  Qed.

  Lemma strstr_iff a b : strstr a b = true <-> occurs a b.
  Proof.
    induction b as [|c b IH]; cbn [strstr].
    - rewrite orb_false_r, prefix_occurs. unfold occurs, occurs_at. split.
      + intros (w & E). exists 0%nat, "", w. auto.
      + intros (n & u & w & E & L). destruct u; [|discriminate E]. exists w. exact E.
    - rewrite orb_true_iff, prefix_occurs, IH. unfold occurs, occurs_at. split.
      + intros [(w & E)|(n & u & w & E & L)].
        * exists 0%nat, "", w. auto.
        * exists (S n), (String c u), w. cbn. rewrite E, L. auto.
      + intros (n & u & w & E & L). destruct u as [|c' u].
        * left. exists w. exact E.
        * right. injection E as -> E. exists (String.length u), u, w. auto.
  Qed.

  Lemma length_app_s a b : String.length (a ++ b) = (String.length a + String.length b)%nat.
  Proof. induction a; cbn; congruence. Qed.

  Lemma get_app u s : String.get (String.length u) (u ++ s) = String.get 0 s.
  Proof. induction u as [|c u IH]; [reflexivity|exact IH]. Qed.

  Lemma get_split n : forall t c, String.get n t = Some c -> exists u w, t = u ++ String c w /\ String.length u = n.
  Proof.
    induction n as [|n IH]; intros [|c0 t] c H; cbn in H; try discriminate.
    - injection H as ->. exists "", t. auto.
    - destruct (IH t c H) as (u & w & -> & L). exists (String c0 u), w. cbn. rewrite L. auto.
  Qed.
End Bf.
