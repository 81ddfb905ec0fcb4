(** The JSON grammar: a text has at most one value. *)
From Coq Require Import String Ascii List ZArith Bool Lia.
From Verif Require Import Word64 PtModel PtSpec.
Import ListNotations.
Open Scope string_scope.
Open Scope Z_scope.
Open Scope list_scope.

Definition ws (a : ascii) : bool := existsb (Ascii.eqb a) [ch 32; ch 9; ch 10; ch 13].
Definition numch (a : ascii) : bool := is_digit a || existsb (Ascii.eqb a) [ch 43; ch 45; ch 46; ch 69; ch 101].
(** What may not follow. *)
Definition stops (p : ascii -> bool) (s : str) : Prop := match s with [] => True | a :: _ => p a = false end.

Lemma span_eq (p : ascii -> bool) a : forall b x y, all p a -> all p b -> stops p x -> stops p y -> a ++ x = b ++ y -> a = b /\ x = y.
Proof.
  induction a as [|c a IH]; intros [|d b] x y Ha Hb Hx Hy E; cbn in E.
  - auto.
  - subst x. cbn in Hx. unfold all in Hb. cbn in Hb. rewrite Hx in Hb. discriminate.
  - subst y. cbn in Hy. unfold all in Ha. cbn in Ha. rewrite Hy in Ha. discriminate.
  - injection E as -> E. unfold all in *. cbn in Ha, Hb. apply andb_true_iff in Ha, Hb.
    destruct (IH b x y) as (-> & ->); try tauto.
Qed.
Lemma all_app p a b : all p a -> all p b -> all p (a ++ b).
Proof. unfold all. rewrite forallb_app. intros -> ->. reflexivity. Qed.
Lemma all_impl (p q : ascii -> bool) s : (forall a, p a = true -> q a = true) -> all p s -> all q s.
Proof. unfold all. rewrite !forallb_forall. auto. Qed.

Lemma digit_numch a : is_digit a = true -> numch a = true.
Proof. unfold numch. intros ->. reflexivity. Qed.
Lemma number_all s : number s -> all numch s.
Proof.
  intros (sg & i & f & e & -> & Hs & Hi & Hf & He).
  apply all_app; [destruct Hs; subst; reflexivity|].
  apply all_app. { destruct Hi as [->|((_ & D) & _)]; [reflexivity|]. eapply all_impl; [apply digit_numch|exact D]. }
  apply all_app.
  - destruct Hf as [->|(d & -> & _ & D)]; [reflexivity|]. apply (all_app numch [ch 46]); [reflexivity|].
    eapply all_impl; [apply digit_numch|exact D].
  - destruct He as [->|(x & g & d & -> & Hx & Hg & _ & D)]; [reflexivity|]. apply (all_app numch [x]); [destruct Hx; subst; reflexivity|].
    apply all_app; [destruct Hg as [->|[->| ->]]; reflexivity|]. eapply all_impl; [apply digit_numch|exact D].
Qed.
Lemma number_first s : number s -> exists a r, s = a :: r /\ numch a = true.
Proof.
  intros H. pose proof (number_all s H) as A. destruct s as [|a r].
  - destruct H as (sg & i & f & e & E & _ & Hi & _). symmetry in E. apply app_eq_nil in E. destruct E as (_ & E).
    apply app_eq_nil in E. destruct E as (-> & _). destruct Hi as [H|((H & _) & _)]; [discriminate|congruence].
  - exists a, r. split; auto. unfold all in A. cbn in A. apply andb_true_iff in A. tauto.
Qed.

Lemma esc_not_u e a : In (e, a) escapes -> e <> ch 117.
Proof. intros H. repeat (destruct H as [H|H]; [injection H as <- <-; discriminate|]). destruct H. Qed.
Lemma esc_fun e a a' : In (e, a) escapes -> In (e, a') escapes -> a = a'.
Proof.
  intros H H'. repeat (destruct H as [H|H];
    [injection H as <- <-; repeat (destruct H' as [H'|H']; [injection H' as E; try discriminate E; auto|]); destruct H'|]). destruct H.
Qed.
Lemma chars_eq l s : chars l s -> forall l' s' x y, chars l' s' -> s ++ DQ :: x = s' ++ DQ :: y -> l = l' /\ s = s' /\ x = y.
Proof.
  induction 1 as [|a l s P H IH|e a l s P H IH|h1 h2 h3 h4 l s P H IH]; intros l' s' x y H' E; inversion H' as [|a' m t P' C'|e' a' m t P' C'|g1 g2 g3 g4 m t P' C']; subst; cbn [app] in E.
  - injection E as ->. auto.
  - injection E as E _. destruct P' as (_ & ? & _). congruence.
  - injection E as E _. discriminate E.
  - injection E as E _. discriminate E.
  - injection E as E _. destruct P as (_ & ? & _). congruence.
  - injection E as -> E. destruct (IH _ _ _ _ C' E) as (-> & -> & ->). auto.
  - injection E as E _. destruct P as (_ & _ & ?). congruence.
  - injection E as E _. destruct P as (_ & _ & ?). congruence.
  - injection E as E _. discriminate E.
  - injection E as E _. destruct P' as (_ & _ & ?). congruence.
  - injection E as -> E. destruct (IH _ _ _ _ C' E) as (-> & -> & ->). rewrite (esc_fun _ _ _ P P'). auto.
  - injection E as E _. apply esc_not_u in P. congruence.
  - injection E as E _. discriminate E.
  - injection E as E _. destruct P' as (_ & _ & ?). congruence.
  - injection E as E _. apply esc_not_u in P'. congruence.
  - injection E as -> -> -> -> E. destruct (IH _ _ _ _ C' E) as (-> & -> & ->). auto.
Qed.

(** The kind of a value shows in its first character. *)
Definition kind (j : json) (a : ascii) : Prop :=
  match j with
  | JNull => a = ch 110 | JTrue => a = ch 116 | JFalse => a = ch 102
  | JNum _ => numch a = true
  | JStr _ => a = DQ | JArr _ => a = ch 91 | JObj _ => a = ch 123
  end.
Lemma value_first j s : value j s -> exists a r, s = a :: r /\ kind j a.
Proof.
  destruct 1 as [| | |s N|l s C|w B|l s I|w B|l s M]; try (do 2 eexists; split; reflexivity).
  apply number_first in N. exact N.
Qed.
Lemma kind_ws j a : kind j a -> ws a = false.
Proof.
  destruct j; cbn [kind]; try (intros ->; reflexivity). unfold numch, is_digit. intros H.
  apply orb_true_iff in H. rewrite !existsb_exists in H.
  destruct H as [(x & I & E)|(x & I & E)]; apply Ascii.eqb_eq in E; subst x; cbn in I;
    repeat (destruct I as [<-|I]; [reflexivity|]); destruct I.
Qed.
Lemma kind_close j a : kind j a -> a <> ch 93 /\ a <> ch 125.
Proof.
  destruct j; cbn [kind]; try (intros ->; split; discriminate). unfold numch, is_digit. intros H.
  apply orb_true_iff in H. rewrite !existsb_exists in H.
  destruct H as [(x & I & E)|(x & I & E)]; apply Ascii.eqb_eq in E; subst x; cbn in I;
    repeat (destruct I as [<-|I]; [split; discriminate|]); destruct I.
Qed.
Definition same_kind (j j' : json) : Prop :=
  match j, j' with
  | JNull, JNull | JTrue, JTrue | JFalse, JFalse | JNum _, JNum _ | JStr _, JStr _ | JArr _, JArr _ | JObj _, JObj _ => True
  | _, _ => False
  end.
Lemma kind_same j j' a : kind j a -> kind j' a -> same_kind j j'.
Proof.
  destruct j, j'; cbn [kind same_kind]; intros H H'; auto; subst; try discriminate; congruence.
Qed.

Scheme value_mind := Minimality for value Sort Prop
  with items_mind := Minimality for items Sort Prop
  with members_mind := Minimality for members Sort Prop.
Combined Scheme value_all from value_mind, items_mind, members_mind.

Lemma stops_app p (a b : str) : a <> [] -> stops p a -> stops p (a ++ b).
Proof. destruct a; [congruence|auto]. Qed.
Lemma ws_num a : ws a = true -> numch a = false.
Proof.
  unfold ws. rewrite existsb_exists. intros (x & I & E). apply Ascii.eqb_eq in E. subst x. cbn in I.
  repeat (destruct I as [<-|I]; [reflexivity|]). destruct I.
Qed.
Lemma blank_stops w (x : str) : blank w -> stops numch x -> stops numch (w ++ x).
Proof.
  destruct w as [|a w]; [auto|]. intros B _. cbn. apply ws_num. unfold blank, all in B. cbn [forallb] in B.
  apply andb_true_iff in B. apply B.
Qed.
Lemma value_stops j s x : value j s -> stops ws (s ++ x).
Proof. intros V. destruct (value_first _ _ V) as (a & r & -> & K). cbn. eapply kind_ws. exact K. Qed.

(** Blanks, then something that does not begin with a blank. *)
Lemma blank_eq w w' x y : blank w -> blank w' -> stops ws x -> stops ws y -> w ++ x = w' ++ y -> w = w' /\ x = y.
Proof. apply (span_eq ws). Qed.

Definition PV (j : json) (s : str) : Prop := forall j' s' x y, value j' s' -> stops numch x -> stops numch y ->
  s ++ x = s' ++ y -> j = j' /\ s = s' /\ x = y.
Definition closer (a : ascii) : Prop := a <> ch 44 /\ ws a = false /\ numch a = false.
Definition PI (l : list json) (s : str) : Prop := forall a l' s' x y, closer a -> items l' s' ->
  s ++ a :: x = s' ++ a :: y -> l = l' /\ s = s' /\ x = y.
Definition PM (l : list (list jchar * json)) (s : str) : Prop := forall a l' s' x y, closer a -> members l' s' ->
  s ++ a :: x = s' ++ a :: y -> l = l' /\ s = s' /\ x = y.

Lemma pick_value j s : PV j s -> value j s -> forall w v j' s' w' v' x y,
  blank w -> blank v -> blank w' -> blank v' -> value j' s' -> stops numch x -> stops numch y -> stops ws x -> stops ws y ->
  w ++ s ++ v ++ x = w' ++ s' ++ v' ++ y -> w = w' /\ j = j' /\ s = s' /\ v = v' /\ x = y.
Proof.
  intros P V w v j' s' w' v' x y B B1 B2 B3 V' N N' T T' E.
  apply blank_eq in E; auto; try (eapply value_stops; eassumption). destruct E as (-> & E).
  destruct (P _ _ _ _ V' (blank_stops _ _ B1 N) (blank_stops _ _ B3 N') E) as (-> & -> & E').
  destruct (blank_eq _ _ _ _ B1 B3 T T' E') as (-> & ->). auto.
Qed.
Lemma closer_stops a (x : str) : closer a -> stops numch (a :: x) /\ stops ws (a :: x).
Proof. intros (_ & H & H'). cbn. auto. Qed.
Lemma items_first l s : items l s -> exists w a r, s = w ++ a :: r /\ blank w /\ ws a = false /\ a <> ch 93.
Proof.
  destruct 1 as [j w s w' B V B'|j w s w' l t B V B' I]; destruct (value_first _ _ V) as (a & r & -> & K);
    exists w, a; eexists; (split; [reflexivity|]); split; auto; (split; [eapply kind_ws; exact K|]); apply (kind_close _ _ K).
Qed.
Lemma members_first l s : members l s -> exists w r, s = w ++ DQ :: r /\ blank w.
Proof. destruct 1 as [k ks j w|k ks j w]; exists w; eexists; split; try reflexivity; assumption. Qed.

Lemma cn (t : str) : stops numch (","%char :: t).
Proof. reflexivity. Qed.
Lemma cw (t : str) : stops ws (","%char :: t).
Proof. reflexivity. Qed.
Lemma closer93 : closer (ch 93).
Proof. split; [discriminate|split; reflexivity]. Qed.
Lemma closer125 : closer (ch 125).
Proof. split; [discriminate|split; reflexivity]. Qed.
Lemma grammar_unique :
  (forall j s, value j s -> value j s /\ PV j s) /\ (forall l s, items l s -> PI l s) /\ (forall l s, members l s -> PM l s).
Proof.
  apply value_all.
  - split; [constructor|]. intros j' s' x y V N N' E. destruct (value_first _ _ V) as (a & r & -> & K). injection E as <- E.
    pose proof (kind_same JNull j' _ eq_refl K) as S. destruct j'; try destruct S. inversion V; subst. injection E as E; subst. auto.
  - split; [constructor|]. intros j' s' x y V N N' E. destruct (value_first _ _ V) as (a & r & -> & K). injection E as <- E.
    pose proof (kind_same JTrue j' _ eq_refl K) as S. destruct j'; try destruct S. inversion V; subst. injection E as E; subst. auto.
  - split; [constructor|]. intros j' s' x y V N N' E. destruct (value_first _ _ V) as (a & r & -> & K). injection E as <- E.
    pose proof (kind_same JFalse j' _ eq_refl K) as S. destruct j'; try destruct S. inversion V; subst. injection E as E; subst. auto.
  - intros s H. split; [constructor; auto|]. intros j' s' x y V N N' E.
    assert (K : same_kind (JNum s) j').
    { destruct (value_first _ _ V) as (a & r & -> & K). destruct (number_first _ H) as (c & q & -> & K').
      injection E as -> E. apply (kind_same (JNum _) j' a K' K). }
    destruct j'; try destruct K. inversion V; subst.
    apply (span_eq numch) in E; auto using number_all. destruct E as (-> & ->). auto.
  - intros l s H. split; [constructor; auto|]. intros j' s' x y V N N' E.
    assert (K : same_kind (JStr l) j').
    { destruct (value_first _ _ V) as (a & r & -> & K). injection E as <- E. apply (kind_same (JStr _) j' DQ eq_refl K). }
    destruct j'; try destruct K. inversion V as [| | | |k t C| | | |]; subst.
    cbn [app] in E. injection E as E. rewrite <- !app_assoc in E. cbn [app] in E.
    destruct (chars_eq _ _ H _ _ _ _ C E) as (-> & -> & ->). auto.
  - intros w B. split; [constructor; auto|]. intros j' s' x y V N N' E.
    assert (K : same_kind (JArr []) j').
    { destruct (value_first _ _ V) as (a & r & -> & K). injection E as <- E. apply (kind_same (JArr _) j' (ch 91) eq_refl K). }
    destruct j'; try destruct K. inversion V as [| | | | |w' B'|k t I| |]; subst.
    + cbn [app S_ list_ascii_of_string] in E. injection E as E. rewrite <- !app_assoc in E.
      apply blank_eq in E; auto; try reflexivity. destruct E as (-> & E). injection E as ->. auto.
    + exfalso. cbn [app S_ list_ascii_of_string] in E. injection E as E. rewrite <- !app_assoc in E.
      destruct (items_first _ _ I) as (v & a & r & -> & Bv & Wa & Na). rewrite <- app_assoc in E.
      apply blank_eq in E; auto; try reflexivity; try exact Wa. destruct E as (_ & E). injection E as E _. apply Na. symmetry. exact E.
  - intros l s I P. split; [constructor; auto|]. intros j' s' x y V N N' E.
    assert (K : same_kind (JArr l) j').
    { destruct (value_first _ _ V) as (a & r & -> & K). injection E as <- E. apply (kind_same (JArr _) j' (ch 91) eq_refl K). }
    destruct j'; try destruct K. inversion V as [| | | | |w' B'|k t I'| |]; subst.
    + exfalso. cbn [app S_ list_ascii_of_string] in E. injection E as E. rewrite <- !app_assoc in E.
      destruct (items_first _ _ I) as (v & a & r & -> & Bv & Wa & Na). rewrite <- app_assoc in E.
      apply blank_eq in E; auto; try reflexivity; try exact Wa. destruct E as (_ & E). injection E as E _. apply Na. exact E.
    + cbn [app S_ list_ascii_of_string] in E. injection E as E. rewrite <- !app_assoc in E. cbn [app] in E.
      destruct (P (ch 93) _ _ _ _ closer93 I' E) as (-> & -> & ->). auto.
  - intros w B. split; [constructor; auto|]. intros j' s' x y V N N' E.
    assert (K : same_kind (JObj []) j').
    { destruct (value_first _ _ V) as (a & r & -> & K). injection E as <- E. apply (kind_same (JObj _) j' (ch 123) eq_refl K). }
    destruct j'; try destruct K. inversion V as [| | | | | | |w' B'|k t I]; subst.
    + cbn [app S_ list_ascii_of_string] in E. injection E as E. rewrite <- !app_assoc in E.
      apply blank_eq in E; auto; try reflexivity. destruct E as (-> & E). injection E as ->. auto.
    + exfalso. cbn [app S_ list_ascii_of_string] in E. injection E as E. rewrite <- !app_assoc in E.
      destruct (members_first _ _ I) as (v & r & -> & Bv). rewrite <- app_assoc in E.
      apply blank_eq in E; auto; try reflexivity. destruct E as (_ & E). injection E as E _. discriminate E.
  - intros l s I P. split; [constructor; auto|]. intros j' s' x y V N N' E.
    assert (K : same_kind (JObj l) j').
    { destruct (value_first _ _ V) as (a & r & -> & K). injection E as <- E. apply (kind_same (JObj _) j' (ch 123) eq_refl K). }
    destruct j'; try destruct K. inversion V as [| | | | | | |w' B'|k t I']; subst.
    + exfalso. cbn [app S_ list_ascii_of_string] in E. injection E as E. rewrite <- !app_assoc in E.
      destruct (members_first _ _ I) as (v & r & -> & Bv). rewrite <- app_assoc in E.
      apply blank_eq in E; auto; try reflexivity. destruct E as (_ & E). injection E as E _. discriminate E.
    + cbn [app S_ list_ascii_of_string] in E. injection E as E. rewrite <- !app_assoc in E. cbn [app] in E.
      destruct (P (ch 125) _ _ _ _ closer125 I' E) as (-> & -> & ->). auto.
  - intros j w s w' B _ (V & P) B' a l' s' x y Ca I E. destruct (closer_stops a x Ca) as (N & T). destruct (closer_stops a y Ca) as (N' & T').
    destruct I as [j2 v s2 v' Bv V2 Bv'|j2 v s2 v' l2 t Bv V2 Bv' I]; rewrite <- !app_assoc in E.
    + destruct (pick_value _ _ P V _ _ _ _ _ _ _ _ B B' Bv Bv' V2 N N' T T' E) as (-> & -> & -> & -> & E'). injection E' as ->. auto.
    + exfalso. cbn [app S_ list_ascii_of_string] in E.
      destruct (pick_value _ _ P V _ _ _ _ _ _ _ _ B B' Bv Bv' V2 N (cn _) T (cw _) E) as (_ & _ & _ & _ & E').
      injection E' as E' _. destruct Ca as (Ca & _). apply Ca. exact E'.
  - intros j w s w' l t B _ (V & P) B' I0 P0 a l' s' x y Ca I E. destruct (closer_stops a y Ca) as (N' & T').
    destruct I as [j2 v s2 v' Bv V2 Bv'|j2 v s2 v' l2 t2 Bv V2 Bv' I]; rewrite <- !app_assoc in E; cbn [app S_ list_ascii_of_string] in E.
    + exfalso.
      destruct (pick_value _ _ P V _ _ _ _ _ _ _ _ B B' Bv Bv' V2 (cn _) N' (cw _) T' E) as (_ & _ & _ & _ & E').
      injection E' as E' _. destruct Ca as (Ca & _). apply Ca. symmetry. exact E'.
    + destruct (pick_value _ _ P V _ _ _ _ _ _ _ _ B B' Bv Bv' V2 (cn _) (cn _) (cw _) (cw _) E) as (-> & -> & -> & -> & E').
      injection E' as E'. destruct (P0 _ _ _ _ _ Ca I E') as (-> & -> & ->). auto.
  - intros k ks j w s w' v v' B Ck B' Bv _ (V & P) Bv' a l' s' x y Ca I E. destruct (closer_stops a x Ca) as (N & T). destruct (closer_stops a y Ca) as (N' & T').
    destruct I as [k2 ks2 j2 u s2 u' z z' Bu Ck2 Bu' Bz V2 Bz'|k2 ks2 j2 u s2 u' z z' l2 t Bu Ck2 Bu' Bz V2 Bz' I];
      rewrite <- !app_assoc in E; cbn [app S_ list_ascii_of_string] in E;
      (apply blank_eq in E; [|assumption|assumption|reflexivity|reflexivity]); destruct E as (-> & E); injection E as E;
      rewrite <- !app_assoc in E; cbn [app] in E; destruct (chars_eq _ _ Ck _ _ _ _ Ck2 E) as (-> & -> & E1);
      (apply blank_eq in E1; [|assumption|assumption|reflexivity|reflexivity]); destruct E1 as (-> & E1); injection E1 as E1.
    + destruct (pick_value _ _ P V _ _ _ _ _ _ _ _ Bv Bv' Bz Bz' V2 N N' T T' E1) as (-> & -> & -> & -> & E'). injection E' as ->. auto.
    + exfalso. destruct (pick_value _ _ P V _ _ _ _ _ _ _ _ Bv Bv' Bz Bz' V2 N (cn _) T (cw _) E1) as (_ & _ & _ & _ & E').
      injection E' as E' _. destruct Ca as (Ca & _). apply Ca. exact E'.
  - intros k ks j w s w' v v' l t B Ck B' Bv _ (V & P) Bv' I0 P0 a l' s' x y Ca I E. destruct (closer_stops a y Ca) as (N' & T').
    destruct I as [k2 ks2 j2 u s2 u' z z' Bu Ck2 Bu' Bz V2 Bz'|k2 ks2 j2 u s2 u' z z' l2 t2 Bu Ck2 Bu' Bz V2 Bz' I];
      rewrite <- !app_assoc in E; cbn [app S_ list_ascii_of_string] in E;
      (apply blank_eq in E; [|assumption|assumption|reflexivity|reflexivity]); destruct E as (-> & E); injection E as E;
      rewrite <- !app_assoc in E; cbn [app] in E; destruct (chars_eq _ _ Ck _ _ _ _ Ck2 E) as (-> & -> & E1);
      (apply blank_eq in E1; [|assumption|assumption|reflexivity|reflexivity]); destruct E1 as (-> & E1); injection E1 as E1.
    + exfalso. destruct (pick_value _ _ P V _ _ _ _ _ _ _ _ Bv Bv' Bz Bz' V2 (cn _) N' (cw _) T' E1) as (_ & _ & _ & _ & E').
      injection E' as E' _. destruct Ca as (Ca & _). apply Ca. symmetry. exact E'.
    + destruct (pick_value _ _ P V _ _ _ _ _ _ _ _ Bv Bv' Bz Bz' V2 (cn _) (cn _) (cw _) (cw _) E1) as (-> & -> & -> & -> & E').
      injection E' as E'. destruct (P0 _ _ _ _ _ Ca I E') as (-> & -> & ->). auto.
Qed.

Lemma json_text_unique j j' s : json_text j s -> json_text j' s -> j = j'.
Proof.
  intros (w & t & w' & B & V & B' & ->) (v & u & v' & Bv & Vu & Bv' & E).
  destruct (proj1 grammar_unique j t V) as (_ & P).
  rewrite <- (app_nil_r w'), <- (app_nil_r v') in E.
  destruct (pick_value j t P V w w' j' u v v' [] []) as (_ & R & _); auto; try exact Logic.I.
Qed.
