(** The operations on records keep the indexes in step. *)
From Coq Require Import List ZArith Bool Lia Permutation.
From Verif Require Import TtModel TtSpec TtProof TtSeek TtAdd TtDel TtEnd QyModel QySpec QyPick QyHist.
Import ListNotations.
Open Scope Z_scope.

Section O.
Context {K : Type}.
Variable cmp : K -> K -> comparison.
Variable null : K.
Variable same : K -> K -> bool.
Hypothesis TO : total_order cmp.
Notation fld := (fld K null).
Notation belongs := (belongs cmp).
Notation dgood := (dgood cmp null).
Notation iok := (iok cmp null).
Notation plain := (plain cmp).
Notation member := (member cmp).
Implicit Types (d : db K) (f : list K) (h g : header K) (t : list (option K)) (rs : list (Z * list K)).

(* ---- records ---- *)
Lemma fields_none rs r : ~ In r (map fst rs) -> fields K rs r = [].
Proof.
  unfold fields. intro H. destruct (List.find (fun p => fst p =? r) rs) as [p|] eqn:E1; [|reflexivity]. apply List.find_some in E1. destruct E1 as [E1 E2]. apply Z.eqb_eq in E2.
  exfalso. apply H. rewrite <- E2. now apply in_map.
Qed.
Lemma fields_iff rs rs' e : NoDup (map fst rs) -> NoDup (map fst rs') -> (forall f, In (e, f) rs <-> In (e, f) rs') -> fields K rs' e = fields K rs e.
Proof.
  intros H1 H2 H. destruct (in_dec Z.eq_dec e (map fst rs)) as [Hi|Hi].
  - apply in_map_iff in Hi. destruct Hi as ([e' f] & <- & Hi). cbn [fst] in *. rewrite (fields_in _ _ _ H1 Hi). apply fields_in; [exact H2|now apply H].
  - rewrite (fields_none _ _ Hi). apply fields_none. intro Q. apply in_map_iff in Q. destruct Q as ([e' f] & <- & Q). apply Hi. apply H in Q. cbn [fst] in *. change e' with (fst (e', f)). now apply in_map.
Qed.
Lemma iok_recs rs d h : iok d h -> (forall e, In e (rw h) -> nth (hcol K h) (fields K rs e) null = nth (hcol K h) (fields K (recs K d) e) null) -> iok (with_recs K rs d) h.
Proof. intros H He. unfold QyHist.iok in *. eapply inv_ext; [|exact H]. intros e Hi. unfold QyModel.fld. cbn [with_recs recs]. now apply He. Qed.
Lemma stat_recs rs d : stat d -> stat (with_recs K rs d).
Proof. intros [S1 S2 S3 S4 S5 S6 S7 S8 S9]. constructor; auto. Qed.
Lemma iok_same d d' h : recs K d' = recs K d -> iok d h -> iok d' h.
Proof. intros H. unfold QyHist.iok, QyModel.fld. now rewrite H. Qed.
Lemma in_new rs p r f e (g : list K) : In (e, g) (firstn p rs ++ (r, f) :: skipn p rs) <-> (e = r /\ g = f) \/ In (e, g) rs.
Proof.
  rewrite in_app_iff. cbn [In]. rewrite <- (firstn_skipn p rs) at 3. rewrite in_app_iff. split.
  - intros [H|[H|H]]; [auto|injection H as <- <-; auto|auto].
  - intros [[-> ->]|[H|H]]; auto.
Qed.
Lemma new_nd rs p r f : NoDup (map fst rs) -> ~ In r (map fst rs) -> NoDup (map fst (firstn p rs ++ (r, f) :: skipn p rs)).
Proof.
  intros H1 H2. rewrite map_app. cbn [map fst]. apply Permutation_NoDup with (l := r :: map fst rs); [|constructor; auto].
  rewrite <- (firstn_skipn p rs) at 1. rewrite map_app. apply Permutation_middle.
Qed.
Lemma fst_new rs p r f e : In e (map fst (firstn p rs ++ (r, f) :: skipn p rs)) <-> e = r \/ In e (map fst rs).
Proof.
  rewrite !in_map_iff. split.
  - intros ([e' g] & <- & H). apply in_new in H. destruct H as [[-> _]|H]; [auto|right; exists (e', g); auto].
  - intros [->|([e' g] & <- & H)]; [exists (r, f)|exists (e', g)]; (split; [reflexivity|]); apply in_new; auto.
Qed.
Lemma eff_set a r h g : eff a r h g -> NoDup (rw h) -> (a = Add -> ~ In r (rw h)) -> NoDup (rw g) /\ forall e, In e (rw g) <-> (match a with Add => e = r \/ In e (rw h) | Del => e <> r /\ In e (rw h) end).
Proof.
  intros H Hn Ha. destruct a; cbn [eff] in H.
  - split; [eapply Permutation_NoDup; [symmetry; exact H|constructor; auto]|]. intro e. split; intro Q.
    + eapply Permutation_in in Q; [|exact H]. destruct Q as [Q|Q]; auto.
    + eapply Permutation_in; [symmetry; exact H|]. destruct Q as [->|Q]; [now left|now right].
  - destruct H as [[H1 H2]|[H1 ->]].
    + pose proof (Permutation_NoDup H2 Hn) as Hn2. inversion_clear Hn2 as [|? ? Hx Hn3]. split; [exact Hn3|]. intro e. split; intro Q.
      * split; [intros ->; contradiction|]. eapply Permutation_in; [symmetry; exact H2|now right].
      * destruct Q as [Q1 Q2]. eapply Permutation_in in Q2; [|exact H2]. destruct Q2 as [Q2|Q2]; [congruence|exact Q2].
    + split; [exact Hn|]. intro e. split; [|tauto]. intro Q. split; [intros ->; contradiction|exact Q].
Qed.
Lemma untempl_plain d f : stat d -> untemplated cmp d f -> plain f d.
Proof.
  intros S0 H h t Hh Ht. destruct (match_tmpl K cmp t f) eqn:E1; [|reflexivity]. exfalso. apply (H h t Hh Ht). intros i v Hi. destruct (match_get cmp t f E1 i v Hi) as (w & H1 & H2).
  exists w. split; [exact H1|]. rewrite (c_flip cmp TO v w), H2. reflexivity.
Qed.
Lemma match_agrees t f : match_tmpl K cmp t f = true -> agrees cmp t f.
Proof. intros E1 i v Hi. destruct (match_get cmp t f E1 i v Hi) as (w & H1 & H2). exists w. split; [exact H1|]. rewrite (c_flip cmp TO v w), H2. reflexivity. Qed.
Lemma fresh_free al d : fresh al d -> free al 0 d.
Proof. intros (H1 & H2 & H3). split; [exact H1|]. split; [exact H2|]. intros h m Hh _. now apply H3. Qed.
Lemma member_raw d p r f h e : member (with_recs K (firstn p (recs K d) ++ (r, f) :: skipn p (recs K d)) d) h e <-> (e = r /\ belongs h f = true) \/ member d h e.
Proof.
  unfold QyHist.member. cbn [with_recs recs]. split.
  - intros (g & H1 & H2). apply in_new in H1. destruct H1 as [[-> ->]|H1]; eauto.
  - intros [[-> H2]|(g & H1 & H2)]; [exists f|exists g]; (split; [apply in_new; auto|exact H2]).
Qed.
Lemma member_fst d h e : member d h e -> In e (map fst (recs K d)).
Proof. intros (f & H & _). change e with (fst (e, f)). now apply in_map. Qed.

(* a new record whose indexes are not done yet *)
Lemma raw_ok d p r f : dgood d -> r <> 0 -> ~ In r (map fst (recs K d)) ->
  let d0 := with_recs K (firstn p (recs K d) ++ (r, f) :: skipn p (recs K d)) d in
  stat d0 /\ (forall h, In h (hdrs K d0) -> iok d0 h) /\ NoDup (map fst (recs K d0)) /\ ~ In 0 (map fst (recs K d0)) /\ fields K (recs K d0) r = f.
Proof.
  intros Hd Hr Hn d0. pose proof (new_nd (recs K d) p r f (d_nd _ _ _ Hd) Hn) as Hnd. split; [apply stat_recs; now apply (dgood_stat cmp null)|]. split; [|split; [exact Hnd|split]].
  - intros h Hh. destruct (dgood_hdr cmp null d h Hd Hh) as (I1 & _ & I3). apply iok_recs; [exact I1|]. intros e He. f_equal. apply fields_iff; [apply Hd|exact Hnd|]. intro g. rewrite in_new.
    apply I3 in He. apply member_fst in He. split; [auto|]. intros [[-> _]|Q]; [contradiction|exact Q].
  - unfold d0. cbn [with_recs recs]. rewrite fst_new. intros [Q|Q]; [congruence|exact (d_0 _ _ _ Hd Q)].
  - apply fields_in; [exact Hnd|]. apply in_new. auto.
Qed.
Theorem create_ok d p r len al : dgood d -> r <> 0 -> ~ In r (map fst (recs K d)) -> fresh al d -> untemplated cmp d (repeat null len) ->
  exists d', create_record K cmp null d p r len al = Some (d', r) /\ dgood d' /\ recs K d' = firstn p (recs K d) ++ (r, repeat null len) :: skipn p (recs K d).
Proof.
  intros Hd Hr Hn Hf Hu. set (f := repeat null len) in *. destruct (raw_ok d p r f Hd Hr Hn) as (S0 & O0 & N0 & Z0 & F0). unfold create_record, create_raw. fold f.
  set (d0 := with_recs K (firstn p (recs K d) ++ (r, f) :: skipn p (recs K d)) d) in *.
  assert (Hpl : plain f d0) by (exact (untempl_plain d f (dgood_stat cmp null d Hd) Hu)).
  destruct (rec_run cmp null TO Add al r f d0 0 S0 F0 O0 (fun _ => fresh_free al d Hf) ltac:(discriminate) (fun _ => Hpl)) as (d' & n' & e & -> & _ & E3 & E4).
  assert (e = 0) as -> by (apply E3; split; [exact Hpl|left; reflexivity]). destruct (E4 eq_refl) as (U & O & _). exists d'. cbn. split; [reflexivity|]. split; [|apply (u_recs _ _ _ _ U)].
  apply dgood_intro; [eapply u_stat; eauto|rewrite (u_recs _ _ _ _ U); exact N0|rewrite (u_recs _ _ _ _ U); exact Z0|].
  intros g Hg. split; [now apply O|]. destruct (u_back _ _ _ _ g U (s_ids _ S0) Hg) as (h & H1 & H2 & H3). destruct (dgood_hdr cmp null d h Hd H1) as (_ & I2 & I3).
  assert (Hm : forall e, member d' g e <-> (e = r /\ belongs h f = true) \/ member d h e).
  { intro e. rewrite <- member_raw with (p := p). fold d0. unfold QyHist.member. rewrite (u_recs _ _ _ _ U). split; intros (f' & A & B); exists f'; (split; [exact A|]); [rewrite <- (hsame_belongs cmp h g f' H2)|rewrite (hsame_belongs cmp h g f' H2)]; exact B. }
  assert (Hrn : ~ In r (rw h)) by (intro Q; apply I3 in Q; apply member_fst in Q; contradiction).
  destruct (belongs h f) eqn:Eb.
  - destruct (eff_set Add r h g H3 I2 (fun _ => Hrn)) as [A1 A2]. split; [exact A1|]. intro e. rewrite A2, Hm, I3. tauto.
  - subst g. split; [exact I2|]. intro e. rewrite Hm, I3. split; [auto|]. intros [[_ Q]|Q]; [discriminate|exact Q].
Qed.

(* ---- deletion ---- *)
Lemma in_del rs r e f : In (e, f) (filter (fun p => negb (fst p =? r)) rs) <-> In (e, f) rs /\ e <> r.
Proof. rewrite filter_In. cbn [fst]. rewrite negb_true_iff, Z.eqb_neq. reflexivity. Qed.
Lemma delete_any d r f : dgood d -> In (r, f) (recs K d) -> exists d1 d' e, delete_record K cmp null d r = Some (d1, e) /\ (untemplated cmp d f -> e = 0) /\
  (e = 0 -> d1 = d' /\ dgood d' /\ recs K d' = filter (fun p => negb (fst p =? r)) (recs K d)).
Proof.
  intros Hd Hi. unfold delete_record. pose proof (dgood_stat cmp null d Hd) as S0. pose proof (fields_in _ _ _ (d_nd _ _ _ Hd) Hi) as F0.
  assert (O0 : forall h, In h (hdrs K d) -> iok d h) by (intros h Hh; apply (dgood_hdr cmp null d h Hd Hh)).
  destruct (rec_run cmp null TO Del (fun _ => 0) r f d 0 S0 F0 O0 ltac:(discriminate) (fun _ h Hh => proj1 (proj2 (dgood_hdr cmp null d h Hd Hh))) ltac:(discriminate)) as (d1 & n' & e & -> & E2 & E3 & E4).
  assert (Hsure : untemplated cmp d f -> e = 0).
  { intro Hu. apply E3. split; [now apply untempl_plain|]. right. intros h Hh Hb. apply (dgood_hdr cmp null d h Hd Hh). exists f. auto. }
  destruct E2 as [-> | ->].
  2: { exists d1, d1, (-3). cbn. split; [reflexivity|]. split; [intro Q; apply Hsure in Q; discriminate|discriminate]. }
  cbn [Z.ltb]. change (0 <? -1) with false. cbv iota. set (d' := with_recs K (filter (fun p => negb (fst p =? r)) (recs K d1)) d1). exists d', d', 0. split; [reflexivity|]. split; [auto|]. intros _. split; [reflexivity|].
  destruct (E4 eq_refl) as (U & O & _). pose proof (u_recs _ _ _ _ U) as Hrec. split; [|unfold d'; cbn [with_recs recs]; now rewrite Hrec].
  assert (Hnd : NoDup (map fst (recs K d'))) by (unfold d'; cbn [with_recs recs]; apply NoDup_map_fst; rewrite Hrec; apply Hd).
  pose proof (u_stat _ _ _ _ U S0) as S1.
  assert (Hg : forall g, In g (hdrs K d1) -> NoDup (rw g) /\ forall e, In e (rw g) <-> member d' g e).
  { intros g Hg. destruct (u_back _ _ _ _ g U (s_ids _ S0) Hg) as (h & H1 & H2 & H3). destruct (dgood_hdr cmp null d h Hd H1) as (_ & I2 & I3).
    assert (Hm : forall e, member d' g e <-> e <> r /\ member d h e).
    { intro e. unfold QyHist.member, d'. cbn [with_recs recs]. rewrite Hrec. split.
      - intros (f' & A & B). apply in_del in A. rewrite (hsame_belongs cmp h g f' H2) in B. split; [tauto|]. exists f'. tauto.
      - intros (A & f' & B & C). exists f'. rewrite in_del, (hsame_belongs cmp h g f' H2). auto. }
    destruct (belongs h f) eqn:Eb.
    - destruct (eff_set Del r h g H3 I2 ltac:(discriminate)) as [A1 A2]. split; [exact A1|]. intro e. rewrite A2, Hm, I3. reflexivity.
    - subst g. split; [exact I2|]. intro e. rewrite Hm, I3. split; [|tauto]. intro Q. split; [|exact Q]. intros ->. destruct Q as (f' & A & B).
      rewrite (fields_in _ _ _ (d_nd _ _ _ Hd) A) in F0. congruence. }
  apply dgood_intro; [now apply stat_recs|exact Hnd| |].
  - intro Q. unfold d' in Q. cbn [with_recs recs] in Q. apply in_map_iff in Q. destruct Q as ([e0 f0] & E1 & Q). cbn [fst] in E1. subst e0. apply in_del in Q. destruct Q as [Q _]. rewrite Hrec in Q. exact (in_rec0 cmp null d 0 f0 Hd Q eq_refl).
  - intros g Hg'. destruct (Hg g Hg') as [G1 G2]. split; [|auto]. apply iok_recs; [now apply O|]. intros e He. f_equal. apply fields_iff; [rewrite Hrec; apply Hd|exact Hnd|]. intro f'. rewrite in_del.
    apply G2 in He. destruct He as (f2 & A & _). unfold d' in A. cbn [with_recs recs] in A. apply in_del in A. tauto.
Qed.

(* ---- writing a field ---- *)
Lemma put_len c v f : length (put_nth K c v f) = length f.
Proof. revert c. induction f as [|a f IH]; intros [|c]; cbn; auto. Qed.
Lemma put_other c v i : i <> c -> forall f, nth i (put_nth K c v f) null = nth i f null.
Proof.
  revert c. induction i as [|i IH]; intros c Hc f; destruct f as [|a f]; destruct c as [|c]; cbn [put_nth nth]; try reflexivity; try (exfalso; now apply Hc). apply IH. congruence.
Qed.
Lemma put_err c v i : i <> c -> forall f, nth_error (put_nth K c v f) i = nth_error f i.
Proof.
  revert c. induction i as [|i IH]; intros c Hc f; destruct f as [|a f]; destruct c as [|c]; cbn [put_nth nth_error]; try reflexivity; try (exfalso; now apply Hc). apply IH. congruence.
Qed.
Lemma match_put_nth t : forall c v f, fixb t c = false -> match_tmpl K cmp t (put_nth K c v f) = match_tmpl K cmp t f.
Proof.
  induction t as [|e t IH]; intros c v f H; [reflexivity|]. destruct f as [|a f]; [destruct c; reflexivity|]. destruct c as [|c]; cbn [put_nth match_tmpl].
  - destruct e; [discriminate|reflexivity].
  - rewrite (IH c v f H). reflexivity.
Qed.
Lemma nodep h c v f : dep c h = false -> belongs h (put_nth K c v f) = belongs h f.
Proof.
  unfold dep, QyPick.belongs, matches. rewrite orb_false_iff. intros [H1 H2]. rewrite put_len. destruct (htmpl K h) as [t|]; [|reflexivity]. now rewrite match_put_nth.
Qed.
Definition wr rs r c v := map (fun p : Z * list K => if fst p =? r then (fst p, put_nth K c v (snd p)) else p) rs.
Lemma wr_fst rs r c v : map fst (wr rs r c v) = map fst rs.
Proof. unfold wr. rewrite map_map. apply map_ext. intros [e f]. cbn [fst]. destruct (e =? r); reflexivity. Qed.
Lemma in_wr rs r c v f e (g : list K) : NoDup (map fst rs) -> In (r, f) rs -> In (e, g) (wr rs r c v) <-> (e = r /\ g = put_nth K c v f) \/ (e <> r /\ In (e, g) rs).
Proof.
  intros Hn Hi. unfold wr. rewrite in_map_iff. split.
  - intros ([e' g'] & H1 & H2). cbn [fst snd] in H1. destruct (Z.eqb_spec e' r) as [->|Hne]; injection H1 as <- <-; [left|right; auto]. split; [reflexivity|].
    rewrite <- (fields_in _ _ _ Hn Hi), (fields_in _ _ _ Hn H2). reflexivity.
  - intros [[-> ->]|[H1 H2]]; [exists (r, f)|exists (e, g)]; cbn [fst snd]; (split; [|assumption]); [rewrite Z.eqb_refl; reflexivity|]. destruct (Z.eqb_spec e r); [contradiction|reflexivity].
Qed.
(* writing column [c] of record [r], which is in no index on that column *)
Lemma write_ok d r c v f : stat d -> NoDup (map fst (recs K d)) -> In (r, f) (recs K d) -> (forall h, In h (hdrs K d) -> iok d h) -> (forall h, In h (hdrs K d) -> hcol K h = c -> ~ In r (rw h)) ->
  stat (write K d r c v) /\ NoDup (map fst (recs K (write K d r c v))) /\ (forall h, In h (hdrs K (write K d r c v)) -> iok (write K d r c v) h) /\
  fields K (recs K (write K d r c v)) r = put_nth K c v f.
Proof.
  intros S0 Hn Hi O0 Hc. unfold write. fold (wr (recs K d) r c v). split; [now apply stat_recs|]. cbn [with_recs recs hdrs]. split; [rewrite wr_fst; exact Hn|].
  assert (Hn' : NoDup (map fst (wr (recs K d) r c v))) by (rewrite wr_fst; exact Hn).
  assert (Hf : fields K (wr (recs K d) r c v) r = put_nth K c v f) by (apply fields_in; [exact Hn'|]; apply (in_wr _ r c v f r _ Hn Hi); auto). split; [|exact Hf].
  intros h Hh. apply iok_recs; [now apply O0|]. intros e He. destruct (Z.eq_dec e r) as [->|Hne].
  - rewrite Hf, (fields_in _ _ _ Hn Hi). apply put_other. intro Q. exact (Hc h Hh Q He).
  - f_equal. apply fields_iff; [exact Hn|exact Hn'|]. intro g. rewrite (in_wr _ r c v f e g Hn Hi). tauto.
Qed.
Lemma member_write d r c v f h e : NoDup (map fst (recs K d)) -> In (r, f) (recs K d) -> member (write K d r c v) h e <-> (e = r /\ belongs h (put_nth K c v f) = true) \/ (e <> r /\ member d h e).
Proof.
  intros Hn Hi. unfold QyHist.member, write. fold (wr (recs K d) r c v). cbn [with_recs recs]. split.
  - intros (g & A & B). apply (in_wr _ r c v f e g Hn Hi) in A. destruct A as [[-> ->]|[A1 A2]]; [auto|right; eauto].
  - intros [[-> B]|(A & g & B & C)]; [exists (put_nth K c v f)|exists g]; (split; [apply (in_wr _ r c v f _ _ Hn Hi); auto|assumption]).
Qed.
Lemma member_one d r f h : NoDup (map fst (recs K d)) -> In (r, f) (recs K d) -> member d h r <-> belongs h f = true.
Proof. intros Hn Hi. split; [|intro; exists f; auto]. intros (g & A & B). rewrite <- (fields_in _ _ _ Hn Hi), (fields_in _ _ _ Hn A). exact B. Qed.
Lemma dep_max d h c : stat d -> In h (hdrs K d) -> (max_field < c)%nat -> dep c h = false.
Proof.
  intros S0 Hh Hc. unfold dep. apply orb_false_iff. split; [apply Nat.eqb_neq; pose proof (s_col _ S0 h Hh); lia|]. destruct (htmpl K h) as [t|] eqn:Et; [|reflexivity].
  unfold fixb. destruct (s_tmpl _ S0 h t Hh Et) as (_ & Hl & _). rewrite (proj2 (nth_error_None t c)) by (unfold max_field in *; lia). reflexivity.
Qed.
Lemma set_ok d r f c v al : dgood d -> In (r, f) (recs K d) -> fresh al d ->
  exists d', set_field K cmp null same d r c v al = Some (d', 0) /\ dgood d' /\ (recs K d' = wr (recs K d) r c v \/ (d' = d /\ same (nth c f null) v = true)).
Proof.
  intros Hd Hi Hf. unfold set_field. pose proof (dgood_stat cmp null d Hd) as S0. pose proof (d_nd _ _ _ Hd) as N0. pose proof (fields_in _ _ _ N0 Hi) as F0. unfold QyModel.fld at 1. rewrite F0.
  destruct (same (nth c f null) v) eqn:Es; [exists d; auto|].
  assert (O0 : forall h, In h (hdrs K d) -> iok d h) by (intros h Hh; apply (dgood_hdr cmp null d h Hd Hh)).
  assert (Hz : forall d1, recs K d1 = wr (recs K d) r c v -> ~ In 0 (map fst (recs K d1))) by (intros d1 ->; rewrite wr_fst; apply Hd).
  destruct (Nat.leb_spec c max_field) as [Hc|Hc].
  - destruct (field_run cmp null TO Del al r c d 0 f S0 F0 O0 ltac:(discriminate)) as (d1 & n1 & e1 & -> & _ & E3 & E4).
    assert (e1 = 0) as ->.
    { apply E3. right. intros h Hh Hs. apply (dgood_hdr cmp null d h Hd Hh). exists f. split; [exact Hi|]. unfold fsel in Hs. now apply andb_true_iff in Hs. }
    change (0 <? -1) with false. cbv iota. destruct (E4 eq_refl) as (U1 & O1 & FR1). pose proof (u_stat _ _ _ _ U1 S0) as S1. pose proof (u_recs _ _ _ _ U1) as R1.
    assert (N1 : NoDup (map fst (recs K d1))) by (rewrite R1; exact N0). assert (Hi1 : In (r, f) (recs K d1)) by (rewrite R1; exact Hi).
    (* after the removal *)
    assert (G1 : forall g, In g (hdrs K d1) -> NoDup (rw g) /\ forall e, In e (rw g) <-> member d1 g e /\ (e = r -> dep c g = false)).
    { intros g Hg. destruct (u_back _ _ _ _ g U1 (s_ids _ S0) Hg) as (h & H1 & H2 & H3). destruct (dgood_hdr cmp null d h Hd H1) as (_ & I2 & I3).
      assert (Hm : forall e, member d1 g e <-> member d h e).
      { intro e. unfold QyHist.member. rewrite R1. split; intros (f' & A & B); exists f'; (split; [exact A|]); [rewrite <- (hsame_belongs cmp h g f' H2)|rewrite (hsame_belongs cmp h g f' H2)]; exact B. }
      rewrite (dep_resp c h g H2). unfold fsel in H3. destruct (dep c h) eqn:Ed; [|cbn [andb] in H3; subst g; split; [exact I2|]; intro e; rewrite Hm, I3; tauto].
      destruct (belongs h f) eqn:Eb; cbn [andb] in H3.
      - destruct (eff_set Del r h g H3 I2 ltac:(discriminate)) as [A1 A2]. split; [exact A1|]. intro e. rewrite A2, Hm, I3. split; [intros [Q1 Q2]; split; [exact Q2|intro; contradiction]|].
        intros [Q1 Q2]. split; [intros ->; specialize (Q2 eq_refl); discriminate|exact Q1].
      - subst g. split; [exact I2|]. intro e. rewrite Hm, I3. split; [|tauto]. intro Q. split; [exact Q|]. intros ->. apply (member_one d r f h N0 Hi) in Q. congruence. }
    destruct (write_ok d1 r c v f S1 N1 Hi1 O1) as (S2 & N2 & O2 & F2).
    { intros g Hg Hcol Q. apply (G1 g Hg) in Q. destruct Q as [_ Q]. specialize (Q eq_refl). unfold dep in Q. rewrite Hcol, Nat.eqb_refl in Q. discriminate. }
    destruct (field_run cmp null TO Add al r c (write K d1 r c v) n1 _ S2 F2 O2) as (d2 & n2 & e2 & -> & _ & E3' & E4').
    { intros _. exact (FR1 (fresh_free al d Hf)). }
    assert (e2 = 0) as -> by (apply E3'; left; reflexivity). change (0 <? -1) with false. cbv iota. destruct (E4' eq_refl) as (U2 & O3 & _). exists d2. split; [reflexivity|].
    assert (R2 : recs K d2 = wr (recs K d) r c v) by (rewrite (u_recs _ _ _ _ U2); unfold write; cbn [with_recs recs]; rewrite R1; reflexivity). split; [|auto].
    apply dgood_intro; [eapply u_stat; eauto|rewrite (u_recs _ _ _ _ U2); exact N2|now apply Hz|]. intros k Hk. split; [now apply O3|].
    destruct (u_back _ _ _ _ k U2 (s_ids _ S2) Hk) as (g & H1 & H2 & H3). change (hdrs K (write K d1 r c v)) with (hdrs K d1) in H1. destruct (G1 g H1) as [I2 I3].
    assert (Hm : forall e, member d2 k e <-> (e = r /\ belongs g (put_nth K c v f) = true) \/ (e <> r /\ member d1 g e)).
    { intro e. rewrite <- (member_write d1 r c v f g e N1 Hi1). unfold QyHist.member. rewrite (u_recs _ _ _ _ U2). split; intros (f' & A & B); exists f'; (split; [exact A|]); [rewrite <- (hsame_belongs cmp g k f' H2)|rewrite (hsame_belongs cmp g k f' H2)]; exact B. }
    unfold fsel in H3. destruct (dep c g) eqn:Ed.
    + assert (Hrn : ~ In r (rw g)) by (intro Q; apply I3 in Q; destruct Q as [_ Q]; specialize (Q eq_refl); discriminate).
      destruct (belongs g (put_nth K c v f)) eqn:Eb; cbn [andb] in H3.
      * destruct (eff_set Add r g k H3 I2 (fun _ => Hrn)) as [A1 A2]. split; [exact A1|]. intro e. rewrite A2, Hm, I3. split; [intros [Q|[Q1 Q2]]; [auto|]|intros [[Q _]|[Q1 Q2]]; [auto|right; tauto]].
        right. split; [|exact Q1]. intros ->. specialize (Q2 eq_refl). discriminate.
      * subst k. split; [exact I2|]. intro e. rewrite Hm, I3. split; [intros [Q1 Q2]; right; split; [|exact Q1]; intros ->; specialize (Q2 eq_refl); discriminate|].
        intros [[_ Q]|[Q1 Q2]]; [discriminate|]. split; [exact Q2|intro; contradiction].
    + cbn [andb] in H3. subst k. split; [exact I2|]. intro e. rewrite Hm, I3, (nodep g c v f Ed). destruct (Z.eq_dec e r) as [->|Hne]; [|tauto]. rewrite (member_one d1 r f g N1 Hi1). tauto.
  - destruct (write_ok d r c v f S0 N0 Hi O0) as (S2 & N2 & O2 & F2).
    { intros h Hh Q. pose proof (s_col _ S0 h Hh). lia. }
    exists (write K d r c v). split; [reflexivity|]. split; [|left; reflexivity]. apply dgood_intro; [exact S2|exact N2|now apply Hz|]. intros h Hh. split; [now apply O2|].
    destruct (dgood_hdr cmp null d h Hd Hh) as (_ & I2 & I3). split; [exact I2|]. intro e. rewrite (member_write d r c v f h e N0 Hi), I3, (nodep h c v f (dep_max d h c S0 Hh Hc)).
    destruct (Z.eq_dec e r) as [->|Hne]; [|tauto]. rewrite (member_one d r f h N0 Hi). tauto.
Qed.

(* ---- filling a new record ---- *)
Definition done h (c : nat) : Prop := (hcol K h < c)%nat /\ forall t, htmpl K h = Some t -> (length t <= c)%nat.
Record part r (c : nat) f d : Prop := {
  p_stat : stat d; p_nd : NoDup (map fst (recs K d)); p_in : In (r, f) (recs K d); p_iok : forall h, In h (hdrs K d) -> iok d h;
  p_rows : forall h, In h (hdrs K d) -> NoDup (rw h) /\ forall e, In e (rw h) <-> (e <> r /\ member d h e) \/ (e = r /\ belongs h f = true /\ done h c) }.
Definition slow (c : nat) f d : Prop := forall h t, In h (hdrs K d) -> htmpl K h = Some t -> match_tmpl K cmp t f = true -> (hcol K h < length t <= c)%nat.
Lemma slow_settled d c f : settled cmp d c f -> slow c f d.
Proof. intros H h t Hh Ht Hm. apply (H h t Hh Ht). now apply match_agrees. Qed.
Lemma fixes_len t c : fixb t c = true -> (c < length t)%nat.
Proof. intro H. apply fixb_ok in H. destruct H as (e & H). apply nth_error_Some. congruence. Qed.
Lemma trim_last t : trim K t = t -> t <> [] -> fixb t (length t - 1) = true.
Proof.
  induction t as [|e t IH]; intros H Hne; [contradiction|]. apply trim_cons in H. destruct H as [H1 H2]. cbn [length]. destruct t as [|u t].
  - destruct e as [e|]; [reflexivity|]. exfalso. now apply H2.
  - specialize (IH H1 ltac:(discriminate)). cbn [length] in *. replace (S (S (length t)) - 1)%nat with (S (S (length t) - 1)) by lia. exact IH.
Qed.
Lemma step_ok r c f d v al n : part r c f d -> (c < length f)%nat -> free al n d -> slow (S c) (put_nth K c v f) d ->
  exists d' n', set_new_field K cmp null (d, n) r c v al = Some ((d', n'), 0) /\ part r (S c) (put_nth K c v f) d' /\ free al n' d' /\ recs K d' = wr (recs K d) r c v /\ hids d' = hids d /\
    forall h, In h (hdrs K d) -> exists g, In g (hdrs K d') /\ hsame h g.
Proof.
  intros [S0 N0 Hi O0 P0] Hlen Hf Hsl. unfold set_new_field. cbn [fst snd]. set (f1 := put_nth K c v f) in *.
  destruct (write_ok d r c v f S0 N0 Hi O0) as (S1 & N1 & O1 & F1).
  { intros h Hh Q Hr. apply (P0 h Hh) in Hr. destruct Hr as [[Q1 _]|(_ & _ & [Q1 _])]; [now apply Q1|lia]. }
  fold f1 in F1. assert (Hi1 : In (r, f1) (recs K (write K d r c v))) by (unfold write; cbn [with_recs recs]; apply (in_wr (recs K d) r c v f r f1 N0 Hi); auto).
  (* what is in the index before, for the new fields *)
  assert (G1 : forall h, In h (hdrs K d) -> NoDup (rw h) /\ forall e, In e (rw h) <-> (e <> r /\ member (write K d r c v) h e) \/ (e = r /\ belongs h f1 = true /\ done h (S c) /\ dep c h = false)).
  { intros h Hh. destruct (P0 h Hh) as [I2 I3]. split; [exact I2|]. intro e. rewrite I3, (member_write d r c v f h e N0 Hi).
    assert (Hd1 : done h c -> dep c h = false).
    { intros [D1 D2]. unfold dep. apply orb_false_iff. split; [apply Nat.eqb_neq; lia|]. destruct (htmpl K h) as [t|] eqn:Et; [|reflexivity]. destruct (fixb t c) eqn:Ef; [|reflexivity]. apply fixes_len in Ef. specialize (D2 t eq_refl). lia. }
    assert (Hd2 : dep c h = false -> done h (S c) -> done h c).
    { intros D0 [D1 D2]. unfold dep in D0. apply orb_false_iff in D0. destruct D0 as [D0 D3]. apply Nat.eqb_neq in D0. split; [lia|]. intros t Et. specialize (D2 t Et). rewrite Et in D3.
      destruct (Nat.eq_dec (length t) (S c)) as [Q|Q]; [|lia]. exfalso. destruct (s_tmpl _ S0 h t Hh Et) as (T1 & _). assert (t <> []) by (intros ->; discriminate).
      pose proof (trim_last t T1 H) as T2. rewrite Q in T2. replace (S c - 1)%nat with c in T2 by lia. congruence. }
    assert (Hd3 : done h c -> done h (S c)) by (intros [D1 D2]; split; [lia|]; intros t Et; specialize (D2 t Et); lia).
    split.
    - intros [[Q1 Q2]|(Q1 & Q2 & Q3)]; [left; auto|right]. pose proof (Hd1 Q3) as D. split; [exact Q1|]. split; [unfold f1; rewrite (nodep h c v f D); exact Q2|auto].
    - intros [[Q1 [[Q2 _]|[_ Q2]]]|(Q1 & Q2 & Q3 & Q4)]; [contradiction|left; auto|right]. split; [exact Q1|]. split; [unfold f1 in Q2; rewrite (nodep h c v f Q4) in Q2; exact Q2|auto]. }
  assert (HD : forall h, In h (hdrs K d) -> belongs h f1 = true -> dep c h = true -> done h (S c)).
  { intros h Hh Hb Hdp. unfold QyPick.belongs in Hb. apply andb_true_iff in Hb. destruct Hb as [_ Hm]. unfold matches in Hm. unfold dep in Hdp. destruct (htmpl K h) as [t|] eqn:Et.
    - destruct (Hsl h t Hh Et Hm) as [L1 L2]. split; [lia|]. intros u Hu. rewrite Et in Hu; injection Hu as <-. exact L2.
    - rewrite orb_false_r in Hdp. apply Nat.eqb_eq in Hdp. split; [lia|]. intros u Hu. congruence. }
  destruct (Nat.leb_spec c max_field) as [Hc|Hc].
  - destruct (field_run cmp null TO Add al r c (write K d r c v) n f1 S1 F1 O1 (fun _ => Hf)) as (d2 & n2 & e2 & -> & _ & E3 & E4).
    assert (e2 = 0) as -> by (apply E3; left; reflexivity). change (0 <? -1) with false. cbv iota. destruct (E4 eq_refl) as (U2 & O2 & FR). exists d2, n2. split; [reflexivity|].
    pose proof (u_recs _ _ _ _ U2) as R2. split; [|split; [exact (FR Hf)|split; [exact R2|split; [exact (u_ids _ _ _ _ U2)|]]]].
    + constructor; [eapply u_stat; eauto|rewrite R2; exact N1|rewrite R2; exact Hi1|exact O2|]. intros k Hk. destruct (u_back _ _ _ _ k U2 (s_ids _ S1) Hk) as (h & H1 & H2 & H3).
      change (hdrs K (write K d r c v)) with (hdrs K d) in H1. destruct (G1 h H1) as [I2 I3].
      assert (Hm : forall e, member d2 k e <-> member (write K d r c v) h e).
      { intro e. unfold QyHist.member. rewrite R2. split; intros (f' & A & B); exists f'; (split; [exact A|]); [rewrite <- (hsame_belongs cmp h k f' H2)|rewrite (hsame_belongs cmp h k f' H2)]; exact B. }
      assert (Hdn : done k (S c) <-> done h (S c)) by (destruct H2 as (_ & X1 & X2); unfold done; rewrite X1, X2; reflexivity).
      rewrite (hsame_belongs cmp h k f1 H2). unfold fsel in H3. destruct (dep c h) eqn:Ed.
      * assert (Hrn : ~ In r (rw h)) by (intro Q; apply I3 in Q; destruct Q as [[Q _]|(_ & _ & _ & Q)]; [now apply Q|discriminate]).
        destruct (belongs h f1) eqn:Eb; cbn [andb] in H3.
        -- destruct (eff_set Add r h k H3 I2 (fun _ => Hrn)) as [A1 A2]. split; [exact A1|]. intro e. rewrite A2, I3, Hm, Hdn. specialize (HD h H1 Eb Ed). split.
           ++ intros [Q|[Q|(_ & _ & _ & Q)]]; [right; auto|left; exact Q|discriminate].
           ++ intros [Q|(Q & _)]; auto.
        -- subst k. split; [exact I2|]. intro e. rewrite I3, Hm. split; [intros [Q|(_ & Q & _)]; [auto|discriminate]|]. intros [Q|(_ & Q & _)]; [auto|discriminate].
      * cbn [andb] in H3. subst k. split; [exact I2|]. intro e. rewrite I3, Hm. tauto.
    + intros h Hh. destruct (u_hdr _ _ _ _ U2 h Hh) as (g & H1 & H2 & _). eauto.
  - exists (write K d r c v), n. split; [reflexivity|]. split; [|split; [exact Hf|split; [reflexivity|split; [reflexivity|]; intros h Hh; exists h; split; [exact Hh|apply hsame_refl]]]].
    constructor; auto. intros h Hh. destruct (G1 h Hh) as [I2 I3]. split; [exact I2|]. intro e. rewrite I3. rewrite (dep_max d h c S0 Hh Hc). tauto.
Qed.
Lemma put_mid v (a b : list K) x : put_nth K (length a) v (a ++ x :: b) = (a ++ [v]) ++ b.
Proof. induction a as [|y a IH]; cbn; [reflexivity|]. now rewrite IH. Qed.
Lemma slow_same d d' c f : stat d' -> map (hid K) (hdrs K d') = map (hid K) (hdrs K d) -> (forall h, In h (hdrs K d) -> exists g, In g (hdrs K d') /\ hsame h g) -> slow c f d -> slow c f d'.
Proof.
  intros S1 Hid Hs H g t Hg Ht Hm. assert (Hi : In (hid K g) (map (hid K) (hdrs K d))) by (rewrite <- Hid; now apply in_map). apply in_map_iff in Hi. destruct Hi as (h & E1 & Hh).
  destruct (Hs h Hh) as (g' & Hg' & X1 & X2 & X3). assert (g' = g) by (apply (in_uniq (hdrs K d')); auto; [apply S1|congruence]). subst g'. rewrite X2. apply (H h t Hh); [congruence|exact Hm].
Qed.

Lemma wr_out rs r c v : ~ In r (map fst rs) -> wr rs r c v = rs.
Proof.
  induction rs as [|[e f] rs IH]; intro H; [reflexivity|]. cbn [wr map fst] in *. destruct (Z.eqb_spec e r) as [->|_]; [exfalso; apply H; now left|]. f_equal. apply IH. intro Q. apply H. now right.
Qed.
Lemma wr_mid (X Y : list (Z * list K)) r f c v : NoDup (map fst (X ++ (r, f) :: Y)) -> wr (X ++ (r, f) :: Y) r c v = X ++ (r, put_nth K c v f) :: Y.
Proof.
  intro H. rewrite map_app in H. cbn [map fst] in H. apply NoDup_remove_2 in H. rewrite in_app_iff in H. unfold wr. rewrite map_app. cbn [map fst snd]. rewrite Z.eqb_refl.
  f_equal; [apply wr_out; tauto|]. f_equal. apply wr_out. tauto.
Qed.
Lemma fill_ok r al X Y vs2 : forall vs1 d n, part r (length vs1) (vs1 ++ repeat null (length vs2)) d -> free al n d -> recs K d = X ++ (r, vs1 ++ repeat null (length vs2)) :: Y ->
  (forall k, (length vs1 < k <= length vs1 + length vs2)%nat -> slow k (firstn k (vs1 ++ vs2) ++ repeat null (length vs1 + length vs2 - k)) d) ->
  exists d' n', fill K cmp null (d, n) r (length vs1) vs2 al = Some ((d', n'), 0) /\ part r (length vs1 + length vs2) (vs1 ++ vs2) d' /\ recs K d' = X ++ (r, vs1 ++ vs2) :: Y.
Proof.
  induction vs2 as [|v vs2 IH]; intros vs1 d n HP Hf HR Hs.
  - cbn [fill length repeat] in *. exists d, n. rewrite Nat.add_0_r. auto.
  - cbn [fill length repeat] in *. assert (Hput : put_nth K (length vs1) v (vs1 ++ null :: repeat null (length vs2)) = (vs1 ++ [v]) ++ repeat null (length vs2)) by apply put_mid.
    assert (Hpart : (vs1 ++ [v]) ++ repeat null (length vs2) = firstn (S (length vs1)) (vs1 ++ v :: vs2) ++ repeat null (length vs1 + S (length vs2) - S (length vs1))).
    { replace (length vs1 + S (length vs2) - S (length vs1))%nat with (length vs2) by lia. f_equal. replace (vs1 ++ v :: vs2) with ((vs1 ++ [v]) ++ vs2) by (rewrite <- app_assoc; reflexivity).
      rewrite firstn_app, app_length. cbn [length]. replace (S (length vs1) - (length vs1 + 1))%nat with O by lia. rewrite firstn_O, app_nil_r, firstn_all2; [reflexivity|]. rewrite app_length. cbn [length]. lia. }
    destruct (step_ok r (length vs1) _ d v al n HP) as (d1 & n1 & E1 & P1 & F1 & R1 & I1 & Hd1); [rewrite app_length; cbn [length]; lia|exact Hf| |].
    { rewrite Hput, Hpart. apply Hs. lia. }
    rewrite E1. cbn [next_if]. change (0 =? 0) with true. cbv iota. rewrite Hput in P1.
    assert (EL : S (length vs1) = length (vs1 ++ [v])) by (rewrite app_length; cbn [length]; lia). rewrite EL in *.
    assert (HR1 : recs K d1 = X ++ (r, (vs1 ++ [v]) ++ repeat null (length vs2)) :: Y) by (rewrite R1, HR, wr_mid, Hput; [reflexivity|rewrite <- HR; apply HP]).
    destruct (IH (vs1 ++ [v]) d1 n1 P1 F1 HR1) as (d2 & n2 & E2 & P2 & R2).
    { intros k Hk. rewrite <- EL in *. replace (S (length vs1) + length vs2)%nat with (length vs1 + S (length vs2))%nat in * by lia. rewrite <- app_assoc. cbn [List.app].
      apply (slow_same d d1); [apply P1|exact I1|exact Hd1|]. apply Hs. lia. }
    exists d2, n2. split; [exact E2|]. rewrite <- EL, <- app_assoc in P2. rewrite <- app_assoc in R2. replace (length vs1 + S (length vs2))%nat with (S (length vs1) + length vs2)%nat by lia. auto.
Qed.
Theorem filled_ok d p r vs al : dgood d -> r <> 0 -> ~ In r (map fst (recs K d)) -> fresh al d ->
  (forall n, (0 < n <= length vs)%nat -> settled cmp d n (firstn n vs ++ repeat null (length vs - n))) ->
  exists d', create_filled K cmp null d p r vs al = Some (d', 0) /\ dgood d' /\ recs K d' = firstn p (recs K d) ++ (r, vs) :: skipn p (recs K d).
Proof.
  intros Hd Hr Hn Hf Hs. set (f := repeat null (length vs)). destruct (raw_ok d p r f Hd Hr Hn) as (S0 & O0 & N0 & Z0 & F0). unfold create_filled, create_raw. fold f.
  set (d0 := with_recs K (firstn p (recs K d) ++ (r, f) :: skipn p (recs K d)) d) in *.
  assert (HP : part r 0 f d0).
  { constructor; auto; [apply in_new; auto|]. intros h Hh. destruct (dgood_hdr cmp null d h Hd Hh) as (_ & I2 & I3). split; [exact I2|]. intro e. rewrite I3. unfold d0. rewrite member_raw. split.
    - intro Q. left. split; [|auto]. intros ->. apply member_fst in Q. contradiction.
    - intros [[Q1 [[Q2 _]|Q2]]|(_ & _ & [Q _])]; [contradiction|exact Q2|lia]. }
  destruct (fill_ok r al (firstn p (recs K d)) (skipn p (recs K d)) vs [] d0 0 HP (fresh_free al d Hf) eq_refl) as (d1 & n1 & E1 & P1 & R1).
  { intros k Hk. cbn [length List.app Nat.add] in *. apply slow_settled. apply Hs. lia. }
  cbn [length List.app Nat.add] in *. rewrite E1. exists d1. split; [reflexivity|]. split; [|exact R1]. destruct P1 as [S1 N1 I1 O1 Q1].
  apply dgood_intro; auto.
  - rewrite R1. rewrite fst_new. intros [Q|Q]; [congruence|exact (d_0 _ _ _ Hd Q)].
  - intros h Hh. destruct (Q1 h Hh) as [A1 A2]. split; [now apply O1|]. split; [exact A1|]. intro e. rewrite A2. destruct (Z.eq_dec e r) as [->|Hne]; [|tauto].
    rewrite (member_one d1 r vs h N1 I1). split; [tauto|]. intro Hb. right. split; [reflexivity|]. split; [exact Hb|]. unfold QyPick.belongs in Hb. apply andb_true_iff in Hb. destruct Hb as [B1 B2].
    apply Nat.ltb_lt in B1. split; [exact B1|]. intros t Et. unfold matches in B2. rewrite Et in B2. now apply (match_len cmp).
Qed.

(* ---- creating an index ---- *)
Lemma build_ok d al h l : (forall m, al m <> 0) -> (forall m k, al m = al k -> m = k) -> forall n x, inv cmp (fld d (hcol K h)) x -> (forall m, (n <= m)%nat -> ~ In (al m) (ids (tr x))) ->
  exists y, build_ix K cmp null d al h l n x = Some y /\ inv cmp (fld d (hcol K h)) y /\ Permutation (rows (tr y)) (map fst (filter (fun p => belongs h (snd p)) l) ++ rows (tr x)).
Proof.
  intros H0 Hinj. induction l as [|[r f] l IH]; intros n x Hx Hf; cbn [build_ix filter snd]; [exists x; auto|].
  change (Nat.ltb (hcol K h) (length f) && matches K cmp h f) with (belongs h f). destruct (belongs h f); [|now apply IH].
  destruct (add_ok cmp (fld d (hcol K h)) TO x r (al n) Hx (H0 n) (Hf n ltac:(lia))) as (y & -> & Hy & (L & R & E1 & E2) & Hinc).
  destruct (IH (S n) y Hy) as (z & E3 & E4 & E5).
  { intros m Hm Q. apply Hinc in Q. destruct Q as [Q|Q]; [apply Hinj in Q; lia|]. revert Q. apply Hf. lia. }
  exists z. split; [exact E3|]. split; [exact E4|]. rewrite E5. cbn [map fst List.app]. rewrite E1, E2. rewrite <- Permutation_middle. rewrite app_assoc, <- Permutation_middle, <- app_assoc. reflexivity.
Qed.
Lemma trim_nth t : forall k e, nth_error (trim K t) k = Some (Some e) <-> nth_error t k = Some (Some e).
Proof.
  induction t as [|u t IH]; intros k e; [reflexivity|]. cbn [trim]. destruct u as [u|].
  - destruct k as [|k]; [reflexivity|]. cbn [nth_error]. apply IH.
  - destruct (trim K t) as [|a b] eqn:E1.
    + split; intro H; [destruct k; discriminate|]. destruct k as [|k]; [discriminate|]. cbn [nth_error] in H. apply IH in H. destruct k; discriminate.
    + destruct k as [|k]; [reflexivity|]. cbn [nth_error]. apply IH.
Qed.
Lemma trim_trim t : trim K (trim K t) = trim K t.
Proof.
  induction t as [|u t IH]; [reflexivity|]. cbn [trim]. destruct u as [u|]; [cbn [trim]; now rewrite IH|]. destruct (trim K t) as [|a b] eqn:E1; [reflexivity|]. cbn [trim] in *. rewrite IH. reflexivity.
Qed.
Lemma trim_len t : (length (trim K t) <= length t)%nat.
Proof. induction t as [|u t IH]; [reflexivity|]. cbn [trim length]. destruct u as [u|]; [cbn [length]; lia|]. destruct (trim K t); cbn [length] in *; lia. Qed.
Lemma fixed_fixes t : fixed_count K t <> O -> exists j, fixes t j.
Proof. induction t as [|[u|] t IH]; cbn [fixed_count]; intro H; [contradiction|exists 0%nat, u; reflexivity|]. destruct (IH H) as (j & e & Hj). exists (S j), e. exact Hj. Qed.
Lemma bad_tmpl c t : bad_index K c (Some t) = false -> tmpl_ok c (trim K t).
Proof.
  unfold bad_index. rewrite !orb_false_iff. intros (_ & ((_ & H2) & H3) & H4). apply Nat.ltb_ge in H2. apply Nat.eqb_neq in H4. split; [apply trim_trim|]. split; [pose proof (trim_len t); lia|]. split.
  - destruct (fixed_fixes t H4) as (j & e & Hj). exists j, e. now apply (proj2 (trim_nth _ _ _)).
  - intros (e & He). apply (proj1 (trim_nth _ _ _)) in He. rewrite (nth_error_nth _ _ None He) in H3. discriminate.
Qed.
Lemma insert_perm hs (t : option (list (option K))) i l : (forall j, In j l -> exists h, hget K j hs = Some h) -> exists o, insert_at K cmp hs t i l = Some o /\ forall m, o = Some m -> Permutation m (i :: l).
Proof.
  induction l as [|j l IH]; intro H; cbn [insert_at].
  - eexists. split; [reflexivity|]. intros m Hm. injection Hm as <-. reflexivity.
  - destruct (H j (or_introl eq_refl)) as (h & ->). destruct (otmpl_same K cmp t (htmpl K h)); [eexists; split; [reflexivity|discriminate]|].
    destruct (match htmpl K h with Some u => Nat.ltb (fixed_count K u) (weight_of K t) | None => Nat.ltb 0 (weight_of K t) end).
    + eexists. split; [reflexivity|]. intros m Hm. injection Hm as <-. reflexivity.
    + destruct (IH (fun z Hz => H z (or_intror Hz))) as (o & -> & Ho). destruct o as [m|]; eexists; (split; [reflexivity|]); [|discriminate]. intros m' Hm. injection Hm as <-. rewrite (Ho m eq_refl). constructor.
Qed.
Lemma add_tt t i : forall c tt y, add_ttable K t i c tt y = if Nat.leb c y && fixb t (y - c) then i :: tt y else tt y.
Proof.
  induction t as [|u t IH]; intros c tt y; cbn [add_ttable].
  - unfold fixb. destruct (y - c)%nat; cbn; now rewrite andb_false_r.
  - assert (Hcase : (y < c \/ y = c \/ S c <= y)%nat) by lia. destruct u as [u|]; rewrite IH.
    + destruct Hcase as [H|[->|H]].
      * rewrite (proj2 (Nat.leb_gt (S c) y)), (proj2 (Nat.leb_gt c y)) by lia. cbn. destruct (Nat.eqb_spec y c); [lia|reflexivity].
      * rewrite (proj2 (Nat.leb_gt (S c) c)), Nat.leb_refl, Nat.sub_diag, Nat.eqb_refl by lia. reflexivity.
      * rewrite !(proj2 (Nat.leb_le _ y)) by lia. replace (y - c)%nat with (S (y - S c)) by lia. destruct (Nat.eqb_spec y c); [lia|]. reflexivity.
    + destruct Hcase as [H|[->|H]].
      * rewrite (proj2 (Nat.leb_gt (S c) y)), (proj2 (Nat.leb_gt c y)) by lia. reflexivity.
      * rewrite (proj2 (Nat.leb_gt (S c) c)), Nat.leb_refl, Nat.sub_diag by lia. reflexivity.
      * rewrite !(proj2 (Nat.leb_le _ y)) by lia. replace (y - c)%nat with (S (y - S c)) by lia. reflexivity.
Qed.
Lemma del_tt t i : forall c tt y, del_ttable K t i c tt y = if Nat.leb c y && fixb t (y - c) then del_first i (tt y) else tt y.
Proof.
  induction t as [|u t IH]; intros c tt y; cbn [del_ttable].
  - unfold fixb. destruct (y - c)%nat; cbn; now rewrite andb_false_r.
  - assert (Hcase : (y < c \/ y = c \/ S c <= y)%nat) by lia. destruct u as [u|]; rewrite IH.
    + destruct Hcase as [H|[->|H]].
      * rewrite (proj2 (Nat.leb_gt (S c) y)), (proj2 (Nat.leb_gt c y)) by lia. cbn. destruct (Nat.eqb_spec y c); [lia|reflexivity].
      * rewrite (proj2 (Nat.leb_gt (S c) c)), Nat.leb_refl, Nat.sub_diag, Nat.eqb_refl by lia. reflexivity.
      * rewrite !(proj2 (Nat.leb_le _ y)) by lia. replace (y - c)%nat with (S (y - S c)) by lia. destruct (Nat.eqb_spec y c); [lia|]. reflexivity.
    + destruct Hcase as [H|[->|H]].
      * rewrite (proj2 (Nat.leb_gt (S c) y)), (proj2 (Nat.leb_gt c y)) by lia. reflexivity.
      * rewrite (proj2 (Nat.leb_gt (S c) c)), Nat.leb_refl, Nat.sub_diag by lia. reflexivity.
      * rewrite !(proj2 (Nat.leb_le _ y)) by lia. replace (y - c)%nat with (S (y - S c)) by lia. reflexivity.
Qed.
Theorem index_ok d c (t : option (list (option K))) i root al : dgood d -> 0 < i < 2 ^ 31 -> ~ In i (hids d) -> root <> 0 -> fresh al d -> (forall n, al n <> root) ->
  exists d' e, create_index K cmp null d c t i root al = Some (d', e) /\ dgood d' /\ recs K d' = recs K d.
Proof.
  intros Hd Hi Hni Hr (F1 & F2 & F3) Hal. pose proof (dgood_stat cmp null d Hd) as S0. unfold create_index. destruct (bad_index K c t) eqn:Eb; [eauto|].
  set (t' := option_map (trim K) t). destruct (insert_perm (hdrs K d) t' i (table K d c)) as (o & -> & Ho).
  { intros j Hj. destruct (hget_ex (hdrs K d) j (s_ids _ S0)) as (h & Hh & _); [apply (s_in _ S0 c); auto|]. eauto. }
  destruct o as [l|]; [|eauto]. specialize (Ho l eq_refl). set (h := {| hid := i; hcol := c; htmpl := t'; hix := new_index K root |}).
  destruct (build_ok d al h (recs K d) F1 F2 0%nat (new_index K root)) as (x & E1 & Hx & Hp).
  { now apply inv_new. }
  { intros m _ Q. unfold ids in Q. cbn in Q. destruct Q as [Q|[]]. exact (Hal m (eq_sym Q)). }
  cbn [hix h] in E1. fold h. change (hix K h) with (new_index K root). rewrite E1. eexists _, 0. split; [reflexivity|]. split; [|reflexivity].
  assert (Hc : (c <= max_field)%nat) by (unfold bad_index in Eb; apply orb_false_iff in Eb; destruct Eb as [Eb _]; now apply Nat.ltb_ge in Eb).
  assert (Ht : forall u, t' = Some u -> tmpl_ok c u) by (intros u Hu; unfold t' in Hu; destruct t as [t|]; [|discriminate]; injection Hu as <-; now apply bad_tmpl).
  assert (Hnt : forall y, ~ In i (table K d y)) by (intros y Q; apply Hni; apply (s_in _ S0 y); auto).
  assert (Hntt : forall y, ~ In i (ttable K d y)) by (intros y Q; apply Hni; apply (s_in _ S0 y); auto).
  set (tt' := match t' with Some t => add_ttable K t i 0 (ttable K d) | None => ttable K d end).
  assert (Htt : forall y, tt' y = if match t' with Some t => fixb t y | None => false end then i :: ttable K d y else ttable K d y).
  { intro y. unfold tt'. destruct t' as [u|]; [|reflexivity]. rewrite add_tt, Nat.sub_0_r. reflexivity. }
  assert (Hold : forall g, In g (hdrs K d) -> hid K g <> i) by (intros g Hg Q; apply Hni; rewrite <- Q; now apply in_map).
  apply dgood_intro; cbn [recs hdrs table ttable]; [|apply Hd|apply Hd|].
  - constructor; cbn [hids hdrs table ttable map hid].
    + constructor; [exact Hni|apply S0].
    + intro y. destruct (Nat.eqb_spec y c) as [->|_]; [|apply S0]. eapply Permutation_NoDup; [symmetry; exact Ho|]. constructor; [apply Hnt|apply S0].
    + intro y. fold tt'. rewrite Htt. destruct (match t' with Some t => fixb t y | None => false end); [constructor; [apply Hntt|apply S0]|apply S0].
    + intros y j. fold tt'. rewrite Htt. intros [Q|Q].
      * destruct (Nat.eqb_spec y c) as [->|_]; [|right; apply (s_in _ S0 y); auto]. eapply Permutation_in in Q; [|exact Ho]. destruct Q as [Q|Q]; [left; exact Q|right; apply (s_in _ S0 c); auto].
      * destruct (match t' with Some t => fixb t y | None => false end); [destruct Q as [Q|Q]; [left; exact Q|]|]; right; apply (s_in _ S0 y); auto.
    + intros g [<-|Hg]; [exact Hc|now apply S0].
    + intros g [<-|Hg]; [exact Hi|now apply S0].
    + intros g u [<-|Hg]; [apply Ht|now apply S0].
    + intros g [<-|Hg] y; cbn [with_ix hid hcol h].
      * destruct (Nat.eqb_spec y c) as [->|Hne]; [|split; [intro Q; exfalso; exact (Hnt y Q)|congruence]]. split; [reflexivity|]. intros _. eapply Permutation_in; [symmetry; exact Ho|now left].
      * rewrite <- (s_gtab _ S0 g Hg y). destruct (Nat.eqb_spec y c) as [->|Hne]; [|reflexivity]. split; intro Q; [eapply Permutation_in in Q; [|exact Ho]; destruct Q as [Q|Q]; [exfalso; exact (Hold g Hg (eq_sym Q))|exact Q]|].
        eapply Permutation_in; [symmetry; exact Ho|now right].
    + intros g Hg0 y. fold tt'. rewrite Htt. destruct Hg0 as [<-|Hg]; cbn [with_ix hid htmpl h].
      * destruct t' as [u|]; [|split; [intro Q; exfalso; exact (Hntt y Q)|intros (u & Q & _); discriminate]]. destruct (fixb u y) eqn:Ef.
        -- split; [intros _; exists u; split; [reflexivity|now apply fixb_ok]|intros _; now left].
        -- split; [intro Q; exfalso; exact (Hntt y Q)|]. intros (u' & Q & Q2). injection Q as <-. apply fixb_ok in Q2. congruence.
      * rewrite <- (s_gttab _ S0 g Hg y). destruct (match t' with Some t => fixb t y | None => false end); [|reflexivity]. split; [intros [Q|Q]; [exfalso; exact (Hold g Hg (eq_sym Q))|exact Q]|intro Q; now right].
  - intros g [<-|Hg].
    + cbn [new_index tr rows els] in Hp. rewrite app_nil_r in Hp. split; [exact Hx|]. split.
      * eapply Permutation_NoDup; [symmetry; exact Hp|]. apply NoDup_map_fst. apply Hd.
      * intro e. unfold rw, QyHist.member. cbn [with_ix hix recs]. split.
        -- intro Q. eapply Permutation_in in Q; [|exact Hp]. apply in_map_iff in Q. destruct Q as ([e' f] & <- & Q). apply filter_In in Q. exists f. exact Q.
        -- intros (f & A & B). eapply Permutation_in; [symmetry; exact Hp|]. apply in_map_iff. exists (e, f). split; [reflexivity|]. apply filter_In. auto.
    + apply (dgood_hdr cmp null d g Hd Hg).
Qed.
Lemma del_first_in i l : NoDup l -> forall j, In j (del_first i l) <-> In j l /\ j <> i.
Proof.
  induction l as [|k l IH]; intros Hn j; [cbn; tauto|]. inversion_clear Hn as [|? ? Hx Hn']. cbn [del_first In]. destruct (Z.eqb_spec k i) as [->|Hne].
  - split; [intro Q; split; [auto|intros ->; contradiction]|]. intros [[Q|Q] Q2]; [congruence|exact Q].
  - cbn [In]. rewrite (IH Hn'). split; [intros [->|[Q1 Q2]]; auto|]. intros [[Q|Q] Q2]; auto.
Qed.
Lemma del_first_nd i l : NoDup l -> NoDup (del_first i l).
Proof.
  induction l as [|k l IH]; intro Hn; [constructor|]. pose proof Hn as Hn0. inversion_clear Hn as [|? ? Hx Hn']. cbn [del_first]. destruct (k =? i); [exact Hn'|]. constructor; [|auto].
  intro Q. apply (del_first_in i l Hn') in Q. tauto.
Qed.
Lemma NoDup_map_filter {A} (fn : A -> Z) p (l : list A) : NoDup (map fn l) -> NoDup (map fn (filter p l)).
Proof.
  induction l as [|a l IH]; intro H; [constructor|]. cbn [map] in H. inversion_clear H as [|? ? Hx Hn]. cbn [filter]. destruct (p a); [|auto]. cbn [map]. constructor; [|auto].
  intro Q. apply Hx. apply in_map_iff in Q. destruct Q as (y & Q1 & Q2). apply filter_In in Q2. rewrite <- Q1. apply in_map. apply Q2.
Qed.
Theorem drop_ok d i : dgood d -> dgood (fst (drop_index K d i)) /\ recs K (fst (drop_index K d i)) = recs K d.
Proof.
  intro Hd. unfold drop_index. destruct (hget K i (hdrs K d)) as [h|] eqn:Eh; [|split; [exact Hd|reflexivity]]. cbn [fst recs]. split; [|reflexivity].
  apply hget_some in Eh. destruct Eh as [Hh Hid]. pose proof (dgood_stat cmp null d Hd) as S0.
  assert (Hg : forall g, In g (filter (fun g => negb (hid K g =? i)) (hdrs K d)) <-> In g (hdrs K d) /\ hid K g <> i) by (intro g; rewrite filter_In, negb_true_iff, Z.eqb_neq; reflexivity).
  set (tt' := match htmpl K h with Some t => del_ttable K t i 0 (ttable K d) | None => ttable K d end).
  assert (Htt : forall y, tt' y = if match htmpl K h with Some t => fixb t y | None => false end then del_first i (ttable K d y) else ttable K d y).
  { intro y. unfold tt'. destruct (htmpl K h) as [u|]; [|reflexivity]. rewrite del_tt, Nat.sub_0_r. reflexivity. }
  assert (Hids : forall j, In j (hids d) -> j <> i -> In j (map (hid K) (filter (fun g => negb (hid K g =? i)) (hdrs K d)))).
  { intros j Hj Hne. apply in_map_iff in Hj. destruct Hj as (g & <- & Hj). apply in_map. apply Hg. auto. }
  apply dgood_intro; cbn [recs hdrs table ttable]; [|apply Hd|apply Hd|].
  - constructor; cbn [hids hdrs table ttable].
    + apply NoDup_map_filter. apply S0.
    + intro y. destruct (Nat.eqb y (hcol K h)); [apply del_first_nd|]; apply S0.
    + intro y. fold tt'. rewrite Htt. destruct (match htmpl K h with Some t => fixb t y | None => false end); [apply del_first_nd|]; apply S0.
    + intros y j. fold tt'. rewrite Htt. unfold hids. cbn [hdrs]. intros [Q|Q].
      * destruct (Nat.eqb_spec y (hcol K h)) as [->|Hne].
        -- apply (del_first_in i _ (s_tab _ S0 _)) in Q. apply Hids; [apply (s_in _ S0 (hcol K h)); tauto|tauto].
        -- apply Hids; [apply (s_in _ S0 y); auto|]. intros ->. rewrite <- Hid in Q. apply (s_gtab _ S0 h Hh) in Q. contradiction.
      * destruct (match htmpl K h with Some t => fixb t y | None => false end) eqn:Ef.
        -- apply (del_first_in i _ (s_ttab _ S0 _)) in Q. apply Hids; [apply (s_in _ S0 y); tauto|tauto].
        -- apply Hids; [apply (s_in _ S0 y); auto|]. intros ->. rewrite <- Hid in Q. apply (s_gttab _ S0 h Hh) in Q. destruct Q as (u & Eu & Q). rewrite Eu in Ef. apply fixb_ok in Q. congruence.
    + intros g Hg0. apply Hg in Hg0. now apply S0.
    + intros g Hg0. apply Hg in Hg0. now apply S0.
    + intros g u Hg0. apply Hg in Hg0. now apply S0.
    + intros g Hg0 y. apply Hg in Hg0. destruct Hg0 as [Hg0 Hne]. rewrite <- (s_gtab _ S0 g Hg0 y). destruct (Nat.eqb y (hcol K h)); [|reflexivity]. rewrite (del_first_in i _ (s_tab _ S0 _)). tauto.
    + intros g Hg0 y. apply Hg in Hg0. destruct Hg0 as [Hg0 Hne]. rewrite <- (s_gttab _ S0 g Hg0 y). fold tt'. rewrite Htt. destruct (match htmpl K h with Some t => fixb t y | None => false end); [|reflexivity].
      rewrite (del_first_in i _ (s_ttab _ S0 _)). tauto.
  - intros g Hg0. apply Hg in Hg0. apply (dgood_hdr cmp null d g Hd). tauto.
Qed.
Lemma none_ok : dgood (no_db K).
Proof. constructor; cbn; try (intros; contradiction); try constructor; try tauto. Qed.
Theorem history_good d : history cmp null same (settled cmp) d -> dgood d.
Proof.
  induction 1 as [|d d' Hh IH Hc]; [apply none_ok|]. destruct Hc as [d p r len al d' Hr Hn Hf Ho E1|d p r vs al d' Hr Hn Hf Ho E1|d r f d' Hi E1|d r f c v al d' Hi Hl Hf E1|d c t i root al d' e Hi Hn Hr Hf Hal E1|d i d' e E1].
  - destruct (create_ok d p r len al IH Hr Hn Hf) as (d1 & E2 & G & _); [|congruence]. intros h t H1 H2 H3. specialize (Ho h t H1 H2 H3). lia.
  - destruct (filled_ok d p r vs al IH Hr Hn Hf Ho) as (d1 & E2 & G & _). congruence.
  - destruct (delete_any d r f IH Hi) as (d1 & d2 & e & E2 & _ & E3). assert (e = 0 /\ d1 = d') as [-> ->] by (split; congruence). destruct (E3 eq_refl) as (-> & G & _). exact G.
  - destruct (set_ok d r f c v al IH Hi Hf) as (d1 & E2 & G & _). congruence.
  - destruct (index_ok d c t i root al IH Hi Hn Hr Hf Hal) as (d1 & e1 & E2 & G & _). congruence.
  - destruct (drop_ok d i IH) as [G _]. rewrite E1 in G. exact G.
Qed.
End O.
