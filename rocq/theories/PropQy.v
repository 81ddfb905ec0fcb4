(** C47: queries return exactly the matching records. *)
From Coq Require Import List ZArith Bool Lia.
From Verif Require Import CmpModel CmpSpec TtModel TtSpec QyModel QySpec QyPick QyOps QyRun PropTt.
Import ListNotations.
Open Scope Z_scope.

(** After every history of successful operations in which no created record agrees with the
    template of an index before the fields it is about are set: a query without an empty gap can be
    made, and fetching from it gives exactly the records that meet all conditions and agree with
    the match record, each once, and then no more; with a limit, the first of them. *)
Theorem C47_query_partial : forall K (cmp : K -> K -> comparison) null same, total_order cmp ->
  forall d m args limit n, history cmp null same (settled cmp) d -> ~ empty_gap cmp args -> (length (recs K d) < n)%nat ->
  exists q l, make_query K cmp null same n d m args limit = Some (Some q) /\
    (NoDup l /\ forall r, In r l <-> exists f, In (r, f) (recs K d) /\ Forall (meets cmp f) args /\ match m with Some m => agrees cmp m f | None => True end) /\
    yields cmp null n q (if Nat.eqb limit 0 then l else firstn limit l).
Proof. intros K cmp null same TO d m args limit n H Hg Hn. exact (query_ok cmp null same TO n d m args limit (history_good cmp null same TO d H) Hg Hn). Qed.
Print Assumptions C47_query_partial.

(** The operations such a history is made of do succeed, and leave the records as expected. *)
Theorem C47_create_partial : forall K (cmp : K -> K -> comparison) null same, total_order cmp ->
  forall d p r len al, history cmp null same (settled cmp) d -> r <> 0 -> ~ In r (map fst (recs K d)) -> fresh al d ->
  settled cmp d 0 (repeat null len) ->
  exists d', create_record K cmp null d p r len al = Some (d', r) /\
    recs K d' = firstn p (recs K d) ++ (r, repeat null len) :: skipn p (recs K d).
Proof.
  intros K cmp null same TO d p r len al H Hr Hn Hf Hs. destruct (create_ok cmp null same TO d p r len al (history_good cmp null same TO d H) Hr Hn Hf) as (d' & A & _ & B); [|eauto].
  intros h t H1 H2 H3. specialize (Hs h t H1 H2 H3). lia.
Qed.
Print Assumptions C47_create_partial.
Theorem C47_fill_partial : forall K (cmp : K -> K -> comparison) null same, total_order cmp ->
  forall d p r vs al, history cmp null same (settled cmp) d -> r <> 0 -> ~ In r (map fst (recs K d)) -> fresh al d ->
  (forall n, (0 < n <= length vs)%nat -> settled cmp d n (firstn n vs ++ repeat null (length vs - n))) ->
  exists d', create_filled K cmp null d p r vs al = Some (d', 0) /\
    recs K d' = firstn p (recs K d) ++ (r, vs) :: skipn p (recs K d).
Proof. intros K cmp null same TO d p r vs al H Hr Hn Hf Hs. destruct (filled_ok cmp null same TO d p r vs al (history_good cmp null same TO d H) Hr Hn Hf Hs) as (d' & A & _ & B). eauto. Qed.
Print Assumptions C47_fill_partial.
Theorem C47_set : forall K (cmp : K -> K -> comparison) null same, total_order cmp ->
  forall d r f c v al, history cmp null same (settled cmp) d -> In (r, f) (recs K d) -> fresh al d ->
  exists d', set_field K cmp null same d r c v al = Some (d', 0) /\
    (recs K d' = map (fun p => if fst p =? r then (r, put_nth K c v (snd p)) else p) (recs K d) \/
     d' = d /\ same (nth c f null) v = true).
Proof.
  intros K cmp null same TO d r f c v al H Hi Hf. destruct (set_ok cmp null same TO d r f c v al (history_good cmp null same TO d H) Hi Hf) as (d' & A & _ & B). exists d'. split; [exact A|].
  destruct B as [B|B]; [left|now right]. rewrite B. unfold wr. apply map_ext. intros [e g]. cbn [fst snd]. destruct (Z.eqb_spec e r) as [->|]; reflexivity.
Qed.
Print Assumptions C47_set.
Theorem C47_delete_partial : forall K (cmp : K -> K -> comparison) null same, total_order cmp ->
  forall d r f, history cmp null same (settled cmp) d -> In (r, f) (recs K d) -> untemplated cmp d f ->
  exists d', delete_record K cmp null d r = Some (d', 0) /\ recs K d' = filter (fun p => negb (fst p =? r)) (recs K d).
Proof.
  intros K cmp null same TO d r f H Hi Hu. destruct (delete_any cmp null same TO d r f (history_good cmp null same TO d H) Hi) as (d1 & d' & e & A & B & C). rewrite (B Hu) in *. destruct (C eq_refl) as (-> & _ & D). eauto.
Qed.
Print Assumptions C47_delete_partial.
Theorem C47_index : forall K (cmp : K -> K -> comparison) null same, total_order cmp ->
  forall d c t i root al, history cmp null same (settled cmp) d -> 0 < i < 2 ^ 31 -> ~ In i (map (hid K) (hdrs K d)) -> root <> 0 -> fresh al d -> (forall n, al n <> root) ->
  exists d' e, create_index K cmp null d c t i root al = Some (d', e) /\ recs K d' = recs K d.
Proof. intros K cmp null same TO d c t i root al H Hi Hn Hr Hf Ha. destruct (index_ok cmp null TO d c t i root al (history_good cmp null same TO d H) Hi Hn Hr Hf Ha) as (d' & e & A & _ & B). eauto. Qed.
Print Assumptions C47_index.

(** An index is refused only if there is one on the same field with the same template, or if it
    cannot be; nothing is changed then.  Otherwise the index is there afterwards. *)
Lemma trim_at K : forall t j, nth j (trim K t) None = nth j t None.
Proof.
  induction t as [|[a|] t IH]; intros j; [reflexivity|destruct j; [reflexivity|apply IH]|].
  cbn [trim]. destruct (trim K t) as [|b u] eqn:E; [|destruct j; [reflexivity|apply IH]].
  destruct j as [|j]; [reflexivity|]. change (None = nth j t None). rewrite <- IH. now destruct j.
Qed.
Lemma tmpl_same_at K (cmp : K -> K -> comparison) : forall t u, tmpl_same K cmp t u = true -> same_template cmp (Some t) (Some u).
Proof.
  induction t as [|a t IH]; intros [|b u] H j; cbn [tmpl_same] in H; try (destruct a; discriminate); try discriminate; [now destruct j|].
  destruct a as [a|], b as [b|]; try discriminate.
  - apply andb_prop in H as [H1 H2]. destruct j as [|j]; cbn [nth]; [|now apply IH]. destruct (cmp a b); easy.
  - destruct j as [|j]; cbn [nth]; [exact I|now apply IH].
Qed.
Lemma fixed_none K : forall t : list (option K), fixed_count K t = O -> forall j, nth j t None = None.
Proof. induction t as [|[a|] t IH]; intros H [|j]; cbn in *; auto; discriminate. Qed.
Lemma insert_refused K cmp hs t i : forall l, insert_at K cmp hs t i l = Some None ->
  exists j h, In j l /\ hget K j hs = Some h /\ otmpl_same K cmp t (htmpl K h) = true.
Proof.
  induction l as [|j l IH]; cbn [insert_at]; [discriminate|]. destruct (hget K j hs) as [h|] eqn:E; [|discriminate].
  destruct (otmpl_same K cmp t (htmpl K h)) eqn:S; [intros _; exists j, h; split; [now left|auto]|].
  destruct (match htmpl K h with Some u => Nat.ltb (fixed_count K u) (weight_of K t) | None => Nat.ltb 0 (weight_of K t) end); [discriminate|].
  destruct (insert_at K cmp hs t i l) as [[m|]|]; try discriminate. intros _. destruct (IH eq_refl) as (j' & h' & A & B & C). exists j', h'. split; [now right|auto].
Qed.
Theorem C47_index_refused : forall K (cmp : K -> K -> comparison) null same, total_order cmp ->
  forall d c t i root al d' e, history cmp null same (settled cmp) d ->
  create_index K cmp null d c t i root al = Some (d', e) ->
  (e <> 0 -> d' = d /\ (improper_index c t \/ exists h, In h (hdrs K d) /\ hcol K h = c /\ same_template cmp t (htmpl K h))) /\
  (e = 0 -> exists h, In h (hdrs K d') /\ hid K h = i /\ hcol K h = c /\ In i (table K d' c)).
Proof.
  intros K cmp null same TO d c t i root al d' e H E. pose proof (history_good cmp null same TO d H) as G. unfold create_index in E.
  destruct (bad_index K c t) eqn:B.
  - injection E as <- <-. split; [|discriminate]. intros _. split; auto. left. unfold bad_index in B. apply orb_prop in B as [B|B].
    + left. now apply Nat.ltb_lt in B.
    + right. destruct t as [u|]; [|discriminate]. exists u. split; auto. apply orb_prop in B as [B|B].
      * apply orb_prop in B as [B|B].
        -- apply orb_prop in B as [B|B].
           ++ destruct u; [|discriminate]. right; left. now intros [|j].
           ++ left. now apply Nat.ltb_lt in B.
        -- right; right. destruct (nth c u None); easy.
      * right; left. apply fixed_none. now apply Nat.eqb_eq in B.
  - destruct (insert_at K cmp (hdrs K d) (option_map (trim K) t) i (table K d c)) as [[l|]|] eqn:I; [| |discriminate].
    + match type of E with context [build_ix ?a ?b ?c ?d ?e ?f ?g ?h ?i] => destruct (build_ix a b c d e f g h i) as [x|]; [|discriminate] end.
      injection E as <- <-. split; [easy|]. intros _. eexists. split; [left; reflexivity|]. split; [reflexivity|]. split; [reflexivity|].
      cbn [table]. rewrite Nat.eqb_refl.
      assert (P : forall l m, insert_at K cmp (hdrs K d) (option_map (trim K) t) i l = Some (Some m) -> In i m).
      { clear. induction l as [|j l IH]; cbn [insert_at]; intros m Q; [injection Q as <-; now left|].
        destruct (hget K j (hdrs K d)) as [h|]; [|discriminate]. destruct (otmpl_same _ _ _ _); [discriminate|].
        destruct (match htmpl K h with Some u => _ | None => _ end); [injection Q as <-; now left|].
        destruct (insert_at K cmp (hdrs K d) (option_map (trim K) t) i l) as [[m'|]|]; try discriminate. injection Q as <-. right. now apply IH. }
      eapply P. exact I.
    + injection E as <- <-. split; [|discriminate]. intros _. split; auto. right.
      destruct (insert_refused _ _ _ _ _ _ I) as (j & h & A1 & A2 & A3). apply hget_some in A2 as [A2 <-].
      exists h. split; auto. split; [symmetry; now apply (g_tab _ _ _ _ (d_hdr _ _ _ G h A2))|].
      destruct t as [t|], (htmpl K h) as [u|]; cbn in A3; try discriminate; [|exact Logic.I].
      apply tmpl_same_at in A3. intros j. specialize (A3 j). rewrite trim_at in A3. exact A3.
Qed.
Print Assumptions C47_index_refused.

(** Which index is used makes no difference: two tables with the same records, whatever the order
    and the indexes, give the same rows. *)
Theorem C47_indexes_do_not_matter_partial : forall K (cmp : K -> K -> comparison) null same, total_order cmp ->
  forall d1 d2 m args n, history cmp null same (settled cmp) d1 -> history cmp null same (settled cmp) d2 ->
  (forall r f, In (r, f) (recs K d1) <-> In (r, f) (recs K d2)) -> ~ empty_gap cmp args ->
  (length (recs K d1) < n)%nat -> (length (recs K d2) < n)%nat ->
  exists q1 q2 l1 l2, make_query K cmp null same n d1 m args 0 = Some (Some q1) /\ make_query K cmp null same n d2 m args 0 = Some (Some q2) /\
    yields cmp null n q1 l1 /\ yields cmp null n q2 l2 /\ NoDup l1 /\ NoDup l2 /\ forall r, In r l1 <-> In r l2.
Proof.
  intros K cmp null same TO d1 d2 m args n H1 H2 He Hg N1 N2.
  destruct (query_ok cmp null same TO n d1 m args 0 (history_good cmp null same TO d1 H1) Hg N1) as (q1 & l1 & A1 & (B1 & C1) & D1).
  destruct (query_ok cmp null same TO n d2 m args 0 (history_good cmp null same TO d2 H2) Hg N2) as (q2 & l2 & A2 & (B2 & C2) & D2).
  exists q1, q2, l1, l2. repeat split; auto; intro Q.
  - apply C2. apply C1 in Q. destruct Q as (f & Q1 & Q2). exists f. split; [now apply He|exact Q2].
  - apply C1. apply C2 in Q. destruct Q as (f & Q1 & Q2). exists f. split; [now apply He|exact Q2].
Qed.
Print Assumptions C47_indexes_do_not_matter_partial.

(* ---- a case ---- *)
(** 40 records of two or three fields, an index on field 0, one on field 0 for records with 5 in
    field 1; some records are deleted and some changed, also into and out of the second index. *)
Definition Cnd c k v : arg Z := {| acol := c; acond := k; aval := v |}.
Definition acts : list op :=
  [Oindex 0 None 5; Oindex 0 (Some [None; Some 5; None]) 6; Oindex 1 None 8] ++
  map (fun i => let z := Z.of_nat i in Ofill (i / 2) (100 + z) ([(z * 37) mod 23; 5 + z mod 3] ++ (if Nat.even i then [z] else []))) (seq 0 40) ++
  map (fun i => Odelete (100 + 3 * Z.of_nat i + 1)) (seq 0 8) ++
  map (fun i => Oset (100 + 3 * Z.of_nat i) 0 (40 + Z.of_nat i)) (seq 0 6) ++
  [Oset 102 1 5; Oset 103 1 7; Odrop 8; Ocreate 7 90 2; Oindex 2 None 9].
Definition table : zdb := ran true acts.
Example table_history : history Z.compare 0 Z.eqb (settled Z.compare) table.
Proof. apply (ran_history true). vm_compute. reflexivity. Qed.
Example table_shape : length (recs Z table) = 33%nat /\ length (hdrs Z table) = 3%nat /\
  forallb (fun h => Nat.leb 2 (length (nodes (tr (hix Z h))))) (hdrs Z table) = true.
Proof. vm_compute. auto. Qed.
(** Through the second index, through the first, without an index, through the third. *)
Example table_queries :
  ask 100 table (Some [None; Some 5]) [Cnd 0 CGt 10; Cnd 0 CLe 42] = Some [124; 139; 121; 136; 118; 100; 106] /\
  ask 100 table None [Cnd 0 CGe 40] = Some [100; 103; 106; 109; 112; 115] /\
  ask 100 table None [Cnd 1 CEq 7; Cnd 1 CNe 6] = Some [103; 105; 111; 117; 123; 129; 135; 138; 132; 126; 120; 114; 108] /\
  ask 100 table None [Cnd 2 CGe 38] = Some [138].
Proof. vm_compute. auto. Qed.
Example table_no_gap : ~ empty_gap Z.compare [Cnd 0 CGt 10; Cnd 0 CLe 42].
Proof. intros (a & b & _ & [<-|[<-|[]]] & _ & _ & Q & _); discriminate. Qed.
Example table_templates : untemplated Z.compare table [0; 0] /\ ~ untemplated Z.compare table [1; 5].
Proof.
  split.
  - intros h t Hh Ht Ha. apply agreesb_ok in Ha.
    assert (Q : forallb (fun h => match htmpl Z h with Some t => negb (agreesb t [0; 0]) | None => true end) (hdrs Z table) = true) by (vm_compute; reflexivity).
    rewrite forallb_forall in Q. specialize (Q h Hh). rewrite Ht, Ha in Q. discriminate.
  - intro Q. assert (E : existsb (fun h => match htmpl Z h with Some t => match_tmpl Z Z.compare t [1; 5] | _ => false end) (hdrs Z table) = true) by (vm_compute; reflexivity).
    apply existsb_exists in E. destruct E as (h & A & B). destruct (htmpl Z h) as [t|] eqn:Et; [|discriminate]. apply (Q h t A Et). apply (match_agrees Z.compare numbers_ordered). exact B.
Qed.
Example orders : total_order Z.compare /\ total_order order.
Proof. exact (conj numbers_ordered contents_ordered). Qed.

(* ---- what fails ---- *)
(** Conditions "greater than v" and "less than v" on a column where v fills three nodes of the
    index: the query returns records with a greater value. *)
Definition gap : zdb := ran true (Oindex 0 None 5 :: map (fun i => Ofill i (10 + Z.of_nat i) [7]) (seq 0 30) ++ [Ofill 30 90 [9]; Ofill 31 91 [3]]).
Theorem C47_refuted_gap : exists d args q q' r, history Z.compare 0 Z.eqb (settled Z.compare) d /\
  make_query Z Z.compare 0 Z.eqb 100 d None args 0 = Some (Some q) /\ fetch Z Z.compare 0 100 d q = Some (Some r, q') /\
  forall f, In (r, f) (recs Z d) -> ~ Forall (meets Z.compare f) args.
Proof.
  exists gap, [Cnd 0 CGt 7; Cnd 0 CLt 7], (Qpre Z [[90]] 0), (Qpre Z [[90]] 1), 90. split; [apply (ran_history true); vm_compute; reflexivity|].
  split; [vm_compute; reflexivity|]. split; [vm_compute; reflexivity|]. intros f _ H. inversion_clear H as [|? ? A H1]. inversion_clear H1 as [|? ? B _].
  destruct A as (v & A1 & A2). destruct B as (w & B1 & B2). cbn in *. assert (v = w) by congruence. subst w. congruence.
Qed.
Print Assumptions C47_refuted_gap.
(** A record of nulls under an index whose template asks for null: it is returned twice. *)
Definition nulls : zdb := ran false [Oindex 0 (Some [None; Some 0]) 5; Ocreate 0 10 2].
Theorem C47_refuted_create : exists d m q q' q'' r, history Z.compare 0 Z.eqb (fun _ _ _ => True) d /\
  make_query Z Z.compare 0 Z.eqb 100 d m [Cnd 0 CGe 0] 0 = Some (Some q) /\ fetch Z Z.compare 0 100 d q = Some (Some r, q') /\
  fetch Z Z.compare 0 100 d q' = Some (Some r, q'').
Proof.
  exists nulls, (Some [None; Some 0]), (Qpre Z [[10; 10]] 0), (Qpre Z [[10; 10]] 1), (Qpre Z [[10; 10]] 2), 10. split; [apply (ran_history false); vm_compute; reflexivity|].
  split; [vm_compute; reflexivity|]. split; vm_compute; reflexivity.
Qed.
Print Assumptions C47_refuted_create.
(** A record whose fields are set one after the other under an index on field 1 for records with 5
    in field 0: it is returned twice, first as if field 1 were still null. *)
Definition late : zdb := ran false [Oindex 1 (Some [Some 5]) 5; Ofill 0 10 [5; 7]].
Theorem C47_refuted_fill : exists d m q q' q'' r, history Z.compare 0 Z.eqb (fun _ _ _ => True) d /\
  make_query Z Z.compare 0 Z.eqb 100 d m [Cnd 1 CGe 0] 0 = Some (Some q) /\ fetch Z Z.compare 0 100 d q = Some (Some r, q') /\
  fetch Z Z.compare 0 100 d q' = Some (Some r, q'').
Proof.
  exists late, (Some [Some 5]), (Qpre Z [[10; 10]] 0), (Qpre Z [[10; 10]] 1), (Qpre Z [[10; 10]] 2), 10. split; [apply (ran_history false); vm_compute; reflexivity|].
  split; [vm_compute; reflexivity|]. split; vm_compute; reflexivity.
Qed.
Print Assumptions C47_refuted_fill.
(** Deleting a record that agrees with the template of an index fails with -3; the record is still
    in the table, but a query no longer returns it. *)
Definition pair : zdb := ran true [Oindex 0 (Some [None; Some 5]) 5; Ofill 0 10 [7; 5]; Ofill 0 11 [7; 5]].
Theorem C47_refuted_delete : exists d d' m args q q' q'' r s f, history Z.compare 0 Z.eqb (settled Z.compare) d /\ In (r, f) (recs Z d) /\
  delete_record Z Z.compare 0 d r = Some (d', -3) /\ In (r, f) (recs Z d') /\ wanted Z.compare m args f /\ r <> s /\
  make_query Z Z.compare 0 Z.eqb 100 d' m args 0 = Some (Some q) /\ fetch Z Z.compare 0 100 d' q = Some (Some s, q') /\
  fetch Z Z.compare 0 100 d' q' = Some (None, q'').
Proof.
  destruct (delete_record Z Z.compare 0 pair 10) as [[d' e]|] eqn:E1; [|vm_compute in E1; discriminate].
  exists pair, d', (Some [None; Some 5]), [Cnd 0 CGe 0], (Qpre Z [[11]] 0), (Qpre Z [[11]] 1), (Qpre Z [] 2), 10, 11, [7; 5].
  split; [apply (ran_history true); vm_compute; reflexivity|]. split; [vm_compute; auto|].
  vm_compute in E1. injection E1 as <- <-. split; [vm_compute; reflexivity|]. split; [cbn; auto|]. split; [split|].
  - constructor; [|constructor]. exists 7. split; [reflexivity|]. cbn. discriminate.
  - intros [|[|i]] v Hv; cbn in Hv; [discriminate| |destruct i; discriminate]. injection Hv as <-. exists 5. auto.
  - split; [discriminate|]. split; [vm_compute; reflexivity|]. split; vm_compute; reflexivity.
Qed.
Print Assumptions C47_refuted_delete.
