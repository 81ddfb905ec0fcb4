From Coq Require Import List ZArith Bool Lia Permutation.
From Verif Require Import VecModel VecSpec VecProof QueueModel QueueSpec QueueProof PickModel PickSpec.
Import ListNotations.
Open Scope Z_scope.

(** A counting vector holding [l] from word [b] up to its end. *)
Record cvinv (v : vec) (b : Z) (l : list Z) : Prop := {
  cv_len : exists n, rd v 0 = Some n /\ 2 <= n < 2 ^ 31 /\ n + 1 <= Z.of_nat (length v) <= n + 2 /\ b + Z.of_nat (length l) <= n + 1;
  cv_next : rd v 1 = Some (b + Z.of_nat (length l));
  cv_start : 2 <= b;
  cv_at : forall k e, nth_error l k = Some e -> rd v (b + Z.of_nat k) = Some e }.

Lemma cv_push v b l ok junk e v' : cvinv v b l -> b + Z.of_nat (length l) < index_max -> cvec_push ok junk v e = VOk v' ->
  cvinv v' b (l ++ [e]) /\ forall j, 2 <= j < b -> rd v' j = rd v j.
Proof.
  intros I Hn E. destruct I as [(n&H) Hnext Hb Hat].
  destruct H as (R0&Hv&HL&Hle).
  unfold cvec_push in E. rewrite Hnext in E.
  pose proof (cstore_ok ok junk v (b + Z.of_nat (length l)) e n _ R0 Hnext ltac:(lia) HL ltac:(lia) ltac:(lia)) as G. rewrite E in G.
  destruct G as (m&A&B&C&D&F&N&K). split.
  - split.
    + exists m. rewrite app_length. cbn. split; [exact A|]. split; [lia|]. split; [exact D|]. lia.
    + rewrite N, app_length. cbn. f_equal. lia.
    + exact Hb.
    + intros k x Hx. destruct (Nat.lt_ge_cases k (length l)) as [L|L].
      * rewrite nth_error_app1 in Hx by exact L. rewrite K; [apply Hat; exact Hx|lia|lia|lia].
      * rewrite nth_error_app2 in Hx by exact L. destruct (k - length l)%nat as [|k'] eqn:Ek; cbn in Hx.
        -- inversion Hx; subst x. replace k with (length l) by lia. exact F.
        -- destruct k'; discriminate.
  - intros j Hj. apply K; lia.
Qed.
Lemma cv_push_ok v b l junk e : cvinv v b l -> b + Z.of_nat (length l) < index_max -> exists v', cvec_push true junk v e = VOk v'.
Proof.
  intros I Hn. destruct I as [(n&H) Hnext Hb Hat].
  destruct H as (R0&Hv&HL&_). unfold cvec_push. rewrite Hnext.
  pose proof (cstore_ok true junk v (b + Z.of_nat (length l)) e n _ R0 Hnext ltac:(lia) HL ltac:(lia) ltac:(lia)) as G.
  destruct (cvec_store true junk v (b + Z.of_nat (length l)) e) as [v'| |]; [eauto|discriminate|contradiction].
Qed.

Lemma nth_error_cons_app (A : list Z) x r k : k = length A -> nth_error (A ++ x :: r) k = Some x.
Proof. intros ->. rewrite nth_error_app2 by lia. rewrite Nat.sub_diag. reflexivity. Qed.

(** The queue by weight, when no clause is ever marked. *)
Lemma pick_unmarked mp Ins Out P q : qrun mp 0 Ins Out [] P q ->
  (exists q', pick ismarked q = Some (None, q') /\ P = [] /\ qrun mp 0 Ins Out [] [] q') \/
  (exists c q' A w B, pick ismarked q = Some (Some c, q') /\ P = A ++ (w, c) :: B /\ (forall e, In e P -> w <= fst e) /\
     qrun mp 0 Ins (c :: Out) [] (behind A w B) q').
Proof.
  intros R. destruct (pick_lightest _ _ _ _ _ _ _ ismarked R) as (r&q'&P'&D'&E&K&R'). rewrite app_nil_r in R'.
  destruct K as [H|A w c B HP Hg Ha].
  - left. exists q'. assert (P = []) as ->. { destruct P as [|e P]; auto. specialize (H e (or_introl eq_refl)). discriminate. }
    auto.
  - right. exists c, q', A, w, B. assert (Z : ahead A w B = []).
    { destruct (ahead A w B) as [|e l]; auto. specialize (Ha e (or_introl eq_refl)). discriminate. }
    rewrite Z in R'. split; [exact E|]. split; [exact HP|]. split; [|exact R'].
    intros e He. rewrite HP in He. apply in_app_or in He. unfold ahead in Z. apply app_eq_nil in Z. destruct Z as (Z1&Z2).
    destruct He as [He|[<-|He]]; cbn; [|lia|].
    + destruct (Z.leb_spec (fst e) w) as [L|L]; [|lia]. exfalso.
      assert (X : In e (filter (fun e => fst e <=? w) A)) by (apply filter_In; split; [exact He|apply Z.leb_le; exact L]). rewrite Z1 in X. destruct X.
    + destruct (Z.ltb_spec (fst e) w) as [L|L]; [|lia]. exfalso.
      assert (X : In e (filter (fun e => fst e <? w) B)) by (apply filter_In; split; [exact He|apply Z.ltb_lt; exact L]). rewrite Z2 in X. destruct X.
Qed.

Ltac bsimp := cbn [simple prior givenpos pratio pcount tratio tcount] in *.
(** One block: [K] kept, [A] taken by age, [W] kept with weights, [L] taken by weight. *)
Record BI (cfg : config) (b : Z) (K A : list Z) (W : list entry) (L : list Z) (x : block) : Prop := {
  bi_cv : cvinv (simple x) 2 K;
  bi_rest : exists rest, K = A ++ rest;
  bi_pos : givenpos x = 2 + Z.of_nat (length A);
  bi_q : exists P, qrun (maxp cfg) 0 W (rev L) [] P (prior x);
  bi_ratio : pratio x = ratio cfg;
  bi_count : 0 <= pcount x;
  bi_tratio : tratio x = this_ratio (strat cfg) b;
  bi_tcount : 0 <= tcount x;
  bi_nz : forall c, In c K -> c <> 0 }.

Lemma pick_simple_ok x K A : cvinv (simple x) 2 K -> (exists rest, K = A ++ rest) -> givenpos x = 2 + Z.of_nat (length A) ->
  (forall c, In c K -> c <> 0) ->
  (K = A /\ pick_simple (simple_turns x) x = Some (None, x)) \/
  (exists c rest, K = A ++ c :: rest /\ pick_simple (simple_turns x) x = Some (Some c,
     {| simple := simple x; prior := prior x; givenpos := givenpos x + 1; pratio := pratio x;
        pcount := pcount x; tratio := tratio x; tcount := tcount x + 1 |})).
Proof.
  intros V (rest&HK) HP NZ. unfold simple_turns. rewrite (cv_next _ _ _ V). cbn [pick_simple]. rewrite (cv_next _ _ _ V).
  destruct rest as [|c rest].
  - left. rewrite app_nil_r in HK. split; [exact HK|]. rewrite HP, HK.
    destruct (Z.ltb_spec (2 + Z.of_nat (length A)) (2 + Z.of_nat (length A))); [lia|]. rewrite andb_false_r. reflexivity.
  - right. exists c, rest. split; [exact HK|].
    assert (Z1 : (2 <? 2 + Z.of_nat (length K)) = true) by (apply Z.ltb_lt; rewrite HK, app_length; cbn [length]; lia).
    assert (Z2 : (givenpos x <? 2 + Z.of_nat (length K)) = true) by (apply Z.ltb_lt; rewrite HP, HK, app_length; cbn [length]; lia).
    rewrite Z1, Z2. cbn [andb]. rewrite HP at 1.
    rewrite (cv_at _ _ _ V (length A) c) by (rewrite HK; apply nth_error_cons_app; reflexivity).
    assert (Hc : c <> 0) by (apply NZ; rewrite HK; apply in_or_app; right; left; reflexivity).
    destruct (Z.eqb_spec c 0); [contradiction|]. reflexivity.
Qed.

(** What picking from a block does. *)
Lemma pick_block_ok cfg b K A W L x : BI cfg b K A W L x ->
  (exists x', pick_block x = Some (None, x') /\ K = A /\ BI cfg b K A W L x' /\ tcount x' = tcount x) \/
  (exists c x' w, pick_block x = Some (Some (true, c), x') /\ BI cfg b K A W (L ++ [c]) x' /\ tcount x' = tcount x + 1 /\
     pcount x < pratio x /\ pcount x' = pcount x + 1 /\ In (w, c) W /\
     (forall e, In e W -> ~ In (snd e) L -> w <= fst e)) \/
  (exists c x' rest, pick_block x = Some (Some (false, c), x') /\ K = A ++ c :: rest /\ BI cfg b K (A ++ [c]) W L x' /\ tcount x' = tcount x + 1 /\
     (pcount x < pratio x -> pcount x' = pcount x) /\ (pratio x <= pcount x -> pcount x' = 0)).
Proof.
  intros [V R HP (P&Q) Hr Hc Ht Htc NZ]. unfold pick_block.
  destruct (Z.ltb_spec (pcount x) (pratio x)) as [L1|L1].
  - destruct (pick_unmarked _ _ _ _ _ Q) as [(q'&E&HP0&Q')|(c&q'&B1&w&B2&E&HP0&Hl&Q')]; rewrite E.
    + set (x1 := {| simple := simple x; prior := q'; givenpos := givenpos x; pratio := pratio x; pcount := pcount x; tratio := tratio x; tcount := tcount x |}).
      destruct (pick_simple_ok x1 K A V R HP NZ) as [(HK&E2)|(c&rest&HK&E2)]; rewrite E2.
      * left. exists x1. split; [reflexivity|]. split; [exact HK|]. split; [|reflexivity].
        split; try assumption. exists []. exact Q'.
      * right. right. eexists c, _, rest. split; [reflexivity|]. split; [exact HK|]. unfold x1 in *; bsimp. split; [|split; [lia|split; [intros _; reflexivity|lia]]].
        split; bsimp; try assumption; try lia.
        -- exists rest. rewrite <- app_assoc. exact HK.
        -- rewrite HP, app_length. cbn [length]. lia.
        -- exists []. exact Q'.
    + right. left. eexists c, _, w. split; [reflexivity|]. bsimp. split; [|split; [lia|split; [exact L1|split; [lia|]]]].
      * split; bsimp; try assumption; try lia. exists (behind B1 w B2). rewrite rev_app_distr. exact Q'.
      * pose proof (nothing_lost _ _ _ _ _ _ _ Q) as PL. cbn in PL.
        split.
        -- clear - Q HP0. assert (In (w, c) P) by (rewrite HP0; apply in_or_app; right; left; reflexivity).
           revert H. clear HP0. remember [] as D0 eqn:HD in Q. revert HD. generalize (w, c) as e. 
           induction Q as [Hm|In0 Out D P q ok junk c1 w1 q' R IH Hc E|In0 Out D P q given r q' P' D' R IH E K]; intros e HD He.
           ++ destruct He.
           ++ destruct (filed (maxp cfg) 0 w1); [|apply IH; auto]. apply in_app_or in He. apply in_or_app. destruct He as [He|He]; [left; apply IH; auto|right; exact He].
           ++ apply app_eq_nil in HD. destruct HD as (HD1&HD2). apply IH; [exact HD2|]. destruct K as [H|A1 w3 c3 B3 HP1 Hg Ha]; [destruct He|].
              rewrite HP1. unfold behind in He. apply in_app_or in He. apply in_or_app. destruct He as [He|He]; apply filter_In in He; destruct He as (He&_); [left|right; right]; exact He.
        -- intros e He Hn. apply Hl.
           clear - Q He Hn. remember [] as D0 eqn:HD in Q. remember (rev L) as Out eqn:HO. assert (Hn' : ~ In (snd e) Out) by (rewrite HO; intros X; apply Hn; apply in_rev; exact X). clear HO Hn.
           revert HD He Hn'.
           induction Q as [Hm|In0 Out D P q ok junk c1 w1 q' R IH Hc E|In0 Out D P q given r q' P' D' R IH E K]; intros HD He Hn.
           ++ destruct He.
           ++ destruct (filed (maxp cfg) 0 w1); [|apply IH; auto]. apply in_app_or in He. apply in_or_app. destruct He as [He|He]; [left; apply IH; auto|right; exact He].
           ++ apply app_eq_nil in HD. destruct HD as (HD1&HD2). destruct K as [H|A1 w3 c3 B3 HP1 Hg Ha].
              ** specialize (IH HD2 He Hn). rewrite HD1 in IH. destruct IH.
              ** assert (HP2 : In e P) by (apply IH; [exact HD2|exact He|intros X; apply Hn; right; exact X]).
                 assert (PP := perm_parts A1 w3 c3 B3). rewrite <- HP1 in PP. apply (Permutation_in _ PP) in HP2. rewrite HD1 in HP2. cbn in HP2.
                 destruct HP2 as [<-|HP2]; [exfalso; apply Hn; left; reflexivity|exact HP2].
  - set (x1 := {| simple := simple x; prior := prior x; givenpos := givenpos x; pratio := pratio x; pcount := 0; tratio := tratio x; tcount := tcount x |}).
    destruct (pick_simple_ok x1 K A V R HP NZ) as [(HK&E2)|(c&rest&HK&E2)]; rewrite E2.
    + left. exists x1. split; [reflexivity|]. split; [exact HK|]. split; [|reflexivity].
      unfold x1; split; bsimp; try assumption; try lia. exists P. exact Q.
    + right. right. eexists c, _, rest. split; [reflexivity|]. split; [exact HK|]. unfold x1 in *; bsimp. split; [|split; [lia|split; [lia|intros _; reflexivity]]].
      split; bsimp; try assumption; try lia.
      * exists rest. rewrite <- app_assoc. exact HK.
      * rewrite HP, app_length. cbn [length]. lia.
      * exists P. exact Q.
Qed.
