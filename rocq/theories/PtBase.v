(** The printer writes exactly its text, and nothing outside the buffer. *)
From Coq Require Import String Ascii List ZArith Bool Lia.
From Verif Require Import Word64 PtModel PtSpec.
Import ListNotations.
Open Scope string_scope.
Open Scope Z_scope.
Open Scope list_scope.

Lemma slen_app a b : slen (a ++ b) = slen a + slen b.
Proof. unfold slen. rewrite app_length. lia. Qed.
Lemma slen_cons a b : slen (a :: b) = 1 + slen b.
Proof. unfold slen. cbn [length]. lia. Qed.
Lemma slen_nil : slen [] = 0.
Proof. reflexivity. Qed.
Lemma slen_pos s : 0 <= slen s.
Proof. unfold slen. lia. Qed.
Lemma slen_one a : slen [a] = 1.
Proof. reflexivity. Qed.

(** * Growing *)
Lemma grow_gt f : forall n x l, grow f n x = Some l -> x < l.
Proof.
  induction f as [|f IH]; intros n x l H; cbn [grow] in H; [discriminate|].
  destruct (1000000000 <? n * 2); [discriminate|].
  destruct (Z.ltb_spec x (n * 2)); [injection H as <-; lia | eauto].
Qed.
Lemma grow_ok f : forall n x, 0 < n -> n <= x -> x <= 500000000 -> x < n * 2 ^ Z.of_nat f -> exists l, grow f n x = Some l.
Proof.
  induction f as [|f IH]; intros n x Hn Hx Hl Hf.
  - change (2 ^ Z.of_nat 0) with 1 in Hf. lia.
  - cbn [grow]. destruct (Z.ltb_spec 1000000000 (n * 2)); [lia|].
    destruct (Z.ltb_spec x (n * 2)); [eauto|].
    apply IH; try lia. rewrite Nat2Z.inj_succ, Z.pow_succ_r in Hf by lia. lia.
Qed.
Definition LIM : Z := 500000000.
Lemma guarantee_ok b x : 0 < blen b -> x <= LIM -> pos b <= x ->
  exists b', guarantee b x = Ok b' /\ txt b' = txt b /\ x <= blen b' /\ 0 < blen b'.
Proof.
  intros Hb Hx Hp. unfold guarantee. destruct (Z.leb_spec x (blen b)); [exists b; repeat split; auto|].
  destruct (grow_ok 31 (blen b) x) as (l & E); try (unfold LIM in Hx; lia).
  rewrite E. apply grow_gt in E. eexists. split; [reflexivity|]. cbn. repeat split; try lia; auto.
Qed.
Lemma guarantee_room b x b' : guarantee b x = Ok b' -> txt b' = txt b /\ x <= blen b'.
Proof.
  unfold guarantee. destruct (Z.leb_spec x (blen b)); [intros E; injection E as <-; auto|].
  destruct (grow 31 (blen b) x) eqn:E; [|discriminate]. apply grow_gt in E.
  intros E'; injection E' as <-. cbn. split; [reflexivity|lia].
Qed.
Lemma guarantee_safe b x : guarantee b x <> Overrun.
Proof. unfold guarantee. destruct (x <=? blen b); [discriminate|]. destruct (grow 31 (blen b) x); discriminate. Qed.

(** * Writing a text: with r places left before, r' after. *)
Definition W (r r' : Z) (k : buf -> res) (s : str) : Prop :=
  forall b, 0 < blen b -> pos b + r <= blen b -> pos b + slen s + 300 <= LIM ->
  exists b', k b = Ok b' /\ txt b' = txt b ++ s /\ 0 < blen b' /\ pos b' + r' <= blen b'.

Lemma W_guar r n r' (k : buf -> res) s N : 0 <= r -> 0 <= n -> n <= slen s + 300 -> (forall b, N b = pos b + n) ->
  W n r' k s -> W r r' (fun b => bind (guarantee b (N b)) k) s.
Proof.
  intros Hr Hn H0 HN H b Hb Hp Hl. rewrite HN.
  destruct (guarantee_ok b (pos b + n)) as (b1 & E & T & B & B0); try lia.
  rewrite E. cbn [bind]. destruct (H b1) as (b2 & E2 & T2 & B2); auto.
  - unfold pos in *. rewrite T. lia.
  - unfold pos in *. rewrite T. lia.
  - exists b2. rewrite <- T. auto.
Qed.
Lemma W_put r s : slen s + 1 <= r -> W r (r - slen s) (fun b => put b s) s.
Proof.
  intros Hs b Hb Hp Hl. unfold put. pose proof (slen_pos s).
  destruct (Z.ltb_spec (blen b - pos b) 0); [lia|].
  assert (E : (length s <= Z.to_nat (blen b - pos b - 1))%nat) by (unfold slen in *; lia).
  rewrite firstn_all2 by exact E. replace (length s - Z.to_nat (blen b - pos b - 1))%nat with 0%nat by lia.
  cbn [repeat]. rewrite app_nil_r. eexists. split; [reflexivity|]. cbn. repeat split; auto.
  unfold pos in *. cbn [txt]. rewrite slen_app. lia.
Qed.
Lemma W_raw r s : slen s <= r -> W r (r - slen s) (fun b => raw b s) s.
Proof.
  intros Hs b Hb Hp Hl. unfold raw. destruct (Z.leb_spec (pos b + slen s) (blen b)); [|lia].
  eexists. split; [reflexivity|]. cbn. repeat split; auto. unfold pos in *. cbn [txt]. rewrite slen_app. lia.
Qed.
Lemma W_bind r r1 r2 k1 k2 s1 s2 : W r r1 k1 s1 -> W r1 r2 k2 s2 -> W r r2 (fun b => bind (k1 b) k2) (s1 ++ s2).
Proof.
  intros H1 H2 b Hb Hp Hl. rewrite slen_app in Hl. pose proof (slen_pos s1). pose proof (slen_pos s2).
  destruct (H1 b) as (b1 & E1 & T1 & B1 & P1); try lia. rewrite E1. cbn [bind].
  destruct (H2 b1) as (b2 & E2 & T2 & B2 & P2); try lia.
  - unfold pos in *. rewrite T1, slen_app. lia.
  - exists b2. rewrite T2, T1, app_assoc. auto.
Qed.
Lemma W_ret r : W r r Ok [].
Proof. intros b Hb Hp Hl. exists b. rewrite app_nil_r. auto. Qed.
Lemma W_ret0 r r' : r' <= r -> W r r' Ok [].
Proof. intros H b Hb Hp Hl. exists b. rewrite app_nil_r. repeat split; auto; lia. Qed.
Lemma W_weak r r' q q' k s : W r r' k s -> r <= q -> q' <= r' -> W q q' k s.
Proof. intros H ? ? b Hb Hp Hl. destruct (H b) as (b' & ? & ? & ? & ?); try lia. exists b'. repeat split; auto; lia. Qed.
Lemma W_ext r r' k k' s s' : W r r' k s -> (forall b, k' b = k b) -> s = s' -> W r r' k' s'.
Proof. intros H E <- b Hb Hp Hl. rewrite E. apply H; auto. Qed.

(** * Never outside: with at least r places left before; [None] places are unknown *)
Definition room (o : option Z) (b : buf) : Prop := match o with Some r => pos b + r <= blen b | None => True end.
Definition N (o o' : option Z) (k : buf -> res) : Prop :=
  forall b, room o b -> match k b with Ok b' => room o' b' | Fail => True | Overrun => False end.
Lemma N_guar o n o' (k : buf -> res) X : (forall b, X b = pos b + n) -> N (Some n) o' k -> N o o' (fun b => bind (guarantee b (X b)) k).
Proof.
  intros HX H b _. rewrite HX. destruct (guarantee b (pos b + n)) as [b1| |] eqn:E; cbn [bind]; auto.
  - apply H. apply guarantee_room in E. destruct E as (T & L). cbn. unfold pos in *. rewrite T. lia.
  - now apply guarantee_safe in E.
Qed.
Lemma N_put r s : 0 <= r -> N (Some r) None (fun b => put b s).
Proof. intros Hr b H. cbn in H. unfold put. destruct (Z.ltb_spec (blen b - pos b) 0); [lia|]. exact Logic.I. Qed.
Lemma N_put_fit r s : slen s + 1 <= r -> N (Some r) (Some (r - slen s)) (fun b => put b s).
Proof.
  intros Hs b H. cbn in H. unfold put. pose proof (slen_pos s).
  destruct (Z.ltb_spec (blen b - pos b) 0); [lia|].
  cbn. unfold pos in *. cbn [txt]. rewrite !slen_app. unfold slen in *. rewrite firstn_length, repeat_length. lia.
Qed.
Lemma N_raw r s : slen s <= r -> N (Some r) None (fun b => raw b s).
Proof. intros Hs b H. cbn in H. unfold raw. destruct (Z.leb_spec (pos b + slen s) (blen b)); [exact Logic.I|lia]. Qed.
Lemma N_bind o o1 o2 k1 k2 : N o o1 k1 -> N o1 o2 k2 -> N o o2 (fun b => bind (k1 b) k2).
Proof. intros H1 H2 b H. specialize (H1 b H). destruct (k1 b) as [b1| |]; cbn; auto. apply H2; auto. Qed.
Lemma N_ret o : N o o Ok.
Proof. intros b H. exact H. Qed.
Lemma N_drop o o' k : N o o' k -> N o None k.
Proof. intros H b R. specialize (H b R). destruct (k b); auto. exact Logic.I. Qed.
Lemma N_any o k : N None o k -> forall o', N o' o k.
Proof. intros H o' b _. apply H. exact Logic.I. Qed.

(** * Lengths *)
Ltac lens := repeat (rewrite slen_cons || rewrite slen_app || rewrite slen_nil || rewrite slen_one).
Ltac consts := repeat match goal with |- context [slen (S_ ?x)] => let y := eval vm_compute in (slen (S_ x)) in change (slen (S_ x)) with y end.
Lemma digits_len f : forall z, (length (digits f z) <= f)%nat.
Proof.
  induction f as [|f IH]; intro z; cbn [digits]; [reflexivity|].
  destruct (z <? 10); [cbn; lia|]. rewrite app_length. specialize (IH (z / 10)). cbn [length]. lia.
Qed.
Lemma dec_len z : slen (dec z) <= 11.
Proof.
  unfold dec, slen. destruct (z <? 0); cbn [length];
    match goal with |- context [digits 10 ?x] => pose proof (digits_len 10 x) end; lia.
Qed.
Lemma esc_len q s : slen (esc q s) = slen s + quotes q s.
Proof.
  unfold quotes. induction s as [|a s IH]; [reflexivity|]. unfold esc in *. cbn [flat_map filter].
  rewrite (Ascii.eqb_sym q a). destruct (Ascii.eqb a q); cbn [app]; rewrite !slen_cons, IH; lia.
Qed.
Lemma quoted_len n : slen (quoted n) = slen n + quotes SQ n + 2.
Proof. unfold quoted. rewrite slen_cons, slen_app, esc_len, slen_one. lia. Qed.
Lemma quoted2_len p n : slen (quoted2 p n) <= slen n + Z.max (quotes SQ n) (quotes DQ n) + 2.
Proof. unfold quoted2. rewrite slen_cons, slen_app, esc_len, slen_one. destruct (is_hash p); lia. Qed.
Lemma dquoted_len n neg u : slen (dquoted n neg u) <= slen n + quotes DQ n + 5.
Proof.
  unfold dquoted. destruct neg, u; lens; rewrite esc_len; consts; rewrite ?slen_nil; lia.
Qed.
Lemma var_name_len m i : slen (var_name m i) <= 12.
Proof.
  unfold var_name. pose proof (dec_len (w32 i)).
  destruct (find _ var_names) as [p|] eqn:E.
  - apply find_some in E. destruct E as (E & _).
    repeat (destruct E as [<-|E]; [vm_compute; discriminate|]). destruct E.
  - destruct m; [lia|]. rewrite slen_app. change (slen (S_ "X")) with 1. lia.
Qed.

(** * The text of each piece *)
Section Text.
Variable fmt : Z -> str.
Variable m : mode.

Definition tx_simple (v : val) (neg : bool) : str :=
  match v with
  | VNull => S_ "NULL"
  | VInt z => dec (w32 z)
  | VDbl d => fmt d
  | VStr s => match m with Json => DQ :: (if neg then S_ "-:" else S_ ":") ++ s ++ [DQ] | Plain => S_ ":" ++ s end
  | VUri None n =>
      match m with
      | Json => if neg then DQ :: S_ "-" ++ esc DQ n ++ [DQ]
                else if str_eqb n EMPTYSTRING then [DQ; DQ] else DQ :: esc DQ n ++ [DQ]
      | Plain =>
          if neg then S_ "-" ++ (if contains SQ n then quoted n else if should_quote n then SQ :: n ++ [SQ] else n)
          else if str_eqb n EMPTYSTRING then [SQ; SQ]
          else if contains SQ n then quoted n else if should_quote n then SQ :: n ++ [SQ] else n
      end
  | VUri (Some p) n =>
      match m with
      | Json => DQ :: (if neg then S_ "-" else []) ++ (if is_hash p then S_ "#:" else []) ++ esc DQ n ++ [DQ]
      | Plain => (if neg then S_ "-" else []) ++ quoted2 p n
      end
  | VVar i => match m with Json => DQ :: S_ "?:" ++ var_name m i ++ [DQ] | Plain => var_name m i end
  | VAnon n => match m with Json => if neg then DQ :: S_ "-" ++ [DQ] else [DQ; DQ] | Plain => if neg then S_ "-!" else S_ "!" end
  end.
Definition tx_leaf (v : val) : str :=
  match v with
  | VUri _ n => match op_name n with Some s => s | None => tx_simple v false end
  | _ => tx_simple v false
  end.
Definition comma (k : nat) : str := if (1 <? k)%nat then S_ "," else [].
Definition opening (k : nat) : str := if (k =? 0)%nat then match m with Json => S_ "," | Plain => S_ "(" end else [].
Fixpoint tx_term (t : tm) : str :=
  match t with
  | Leaf v => tx_simple v false
  | Rec fs =>
      (match m with Json => S_ "[" | Plain => [] end) ++
      (fix go (k : nat) (l : list tm) : str :=
         match l with
         | [] => []
         | f :: r => comma k ++ (match f with Rec _ => tx_term f | Leaf v => tx_leaf v end) ++ opening k ++ go (S k) r
         end) O fs ++
      (match m with Json => S_ "]" | Plain => S_ ")" end)
  end.
Fixpoint tx_fields (k : nat) (l : list tm) : str :=
  match l with
  | [] => []
  | f :: r => comma k ++ (match f with Rec _ => tx_term f | Leaf v => tx_leaf v end) ++ opening k ++ tx_fields (S k) r
  end.
Lemma tx_rec fs : tx_term (Rec fs) =
  (match m with Json => S_ "[" | Plain => [] end) ++ tx_fields O fs ++ (match m with Json => S_ "]" | Plain => S_ ")" end).
Proof.
  reflexivity.
Qed.
Definition aopening (k : nat) (r : list tm) : str :=
  if (k =? 0)%nat then match m with Json => match r with [] => [] | _ => S_ "," end | Plain => S_ "(" end else [].
Fixpoint tx_afields (neg : bool) (k : nat) (l : list tm) : str :=
  match l with
  | [] => []
  | f :: r => comma k ++ (match f with Rec _ => tx_term f | Leaf v => tx_simple v (neg && (k =? 0)%nat) end) ++
              aopening k r ++ tx_afields neg (S k) r
  end.
Definition tx_atom (fs : list tm) (neg : bool) : str :=
  (match m with Json => S_ "[" | Plain => [] end) ++ tx_afields neg O fs ++ (match m with Json => S_ "]" | Plain => S_ ")" end).
Fixpoint tx_lits (i : nat) (l : list (bool * tm)) : str :=
  match l with
  | [] => []
  | (neg, t) :: r =>
      (if (0 <? i)%nat then match m with Json => S_ ", " | Plain => S_ " | " end else []) ++
      (match m with Json => [] | Plain => if neg then S_ "-" else [] end) ++
      (match t with
       | Rec fs => match m with Json => tx_atom fs neg | Plain => tx_term t end
       | Leaf v => tx_simple v false
       end) ++ tx_lits (S i) r
  end.
Definition tx_clause (c : option clause) : str :=
  match c with
  | None => S_ "false"
  | Some (Rule l) => (match m with Json => S_ "[" | Plain => [] end) ++ tx_lits O l ++ (match m with Json => S_ "]" | Plain => S_ "." end)
  | Some (Fact fs) => match m with Json => S_ "[" ++ tx_atom fs false ++ S_ "]" | Plain => tx_atom fs false ++ S_ "." end
  end.

(** * What fits *)
Definition qbound (v : val) : Prop :=
  match v with VUri p n => quotes DQ n <= 90 /\ quotes SQ n <= 90 | _ => True end.
Definition fits (v : val) : Prop :=
  match v with
  | VDbl d => slen (fmt d) <= 40
  | VAnon n => slen n <= 200
  | VUri p n => quotes (match m with Json => DQ | Plain => SQ end) n <= 90 /\
                (m = Plain -> quotes DQ n <= 90) /\ match p with Some q => slen q <= 100 | None => True end
  | _ => True
  end.
Definition fits_leaf (v : val) : Prop :=
  fits v /\ match v with VUri _ n => match op_name n with Some s => slen s <= 8 | None => True end | _ => True end.

Lemma no_contains q n : contains q n = false -> esc q n = n.
Proof.
  unfold contains, esc. induction n as [|a n IH]; [reflexivity|]. cbn [existsb flat_map]. intros H.
  apply orb_false_elim in H. destruct H as (H & H'). rewrite Ascii.eqb_sym in H. rewrite H, (IH H'). reflexivity.
Qed.
Lemma contains_not q n : contains q n = false -> quotes q n = 0.
Proof. intros H. pose proof (esc_len q n). rewrite (no_contains _ _ H) in *. lia. Qed.


Lemma W_put0 r s : slen s + 1 <= r -> W r 0 (fun b => put b s) s.
Proof. intros. eapply W_weak; [apply (W_put r s)|..]; lia. Qed.
Lemma W_raw0 r s : slen s <= r -> W r 0 (fun b => raw b s) s.
Proof. intros. eapply W_weak; [apply (W_raw r s)|..]; lia. Qed.

Lemma quotes_pos q n : 0 <= quotes q n.
Proof. apply slen_pos. Qed.

Lemma simple_W v neg : fits v -> W 0 0 (simple fmt m v neg) (tx_simple v neg).
Proof.
  intros F. unfold simple.
  eapply W_guar with (n := 50); [lia|lia| |reflexivity|].
  { pose proof (slen_pos (tx_simple v neg)). lia. }
  destruct v as [|z|d|s|[p|] n|i|n]; cbn [tx_simple fits] in *.
  - apply W_put0. vm_compute. discriminate.
  - apply W_put0. pose proof (dec_len (w32 z)). lia.
  - apply W_put0. lia.
  - eapply W_guar with (n := slen s + 50); [lia|pose proof (slen_pos s); lia| |intro; lia|].
    { destruct m, neg; lens; consts; lia. }
    destruct m; apply W_put0; lens; consts; destruct neg; consts; lia.
  - destruct F as (Q & Q2 & P). pose proof (slen_pos p). pose proof (slen_pos n).
    eapply W_guar with (n := slen n + slen p + 100); [lia|lia| |intro; lia|].
    { destruct m; lens; rewrite ?esc_len; [pose proof (quotes_pos DQ n)|];
      [destruct neg, (is_hash p); consts; rewrite ?slen_nil; lia|].
      unfold quoted2. lens. rewrite esc_len. pose proof (quotes_pos (if is_hash p then DQ else SQ) n).
      destruct neg; consts; rewrite ?slen_nil; lia. }
    destruct m; cbn iota in Q.
    + destruct (contains DQ n) eqn:C.
      * apply (W_raw0 _ (dquoted n neg (is_hash p))). pose proof (dquoted_len n neg (is_hash p)). lia.
      * rewrite (no_contains _ _ C). apply W_put0. lens. destruct neg, (is_hash p); consts; rewrite ?slen_nil; lia.
    + specialize (Q2 eq_refl). pose proof (quoted2_len p n). destruct neg.
      * eapply W_bind with (r1 := slen n + slen p + 100 - 1); [apply (W_put _ (S_ "-")); consts; lia | apply W_raw0; lia].
      * apply (W_raw0 _ (quoted2 p n)). lia.
  - destruct F as (Q & _ & _). pose proof (slen_pos n).
    eapply W_guar with (n := slen n + 100); [lia|lia| |intro; lia|].
    { destruct m.
      - destruct neg; [lens; rewrite esc_len; pose proof (quotes_pos DQ n); consts; lia|].
        destruct (str_eqb n EMPTYSTRING) eqn:E.
        + unfold str_eqb in E. destruct (list_eq_dec ascii_dec n EMPTYSTRING); [subst n; vm_compute; discriminate|discriminate].
        + lens; rewrite esc_len; pose proof (quotes_pos DQ n); lia.
      - pose proof (quotes_pos SQ n). destruct neg.
        + destruct (contains SQ n); [|destruct (should_quote n)]; lens; rewrite ?quoted_len; consts; lia.
        + destruct (str_eqb n EMPTYSTRING) eqn:E.
          * unfold str_eqb in E. destruct (list_eq_dec ascii_dec n EMPTYSTRING); [subst n; vm_compute; discriminate|discriminate].
          * destruct (contains SQ n); [|destruct (should_quote n)]; lens; rewrite ?quoted_len; lia. }
    destruct m, neg; cbn iota in Q.
    + destruct (contains DQ n) eqn:C.
      * apply (W_raw0 _ (dquoted n true false)). pose proof (dquoted_len n true false). lia.
      * rewrite (no_contains _ _ C). apply W_put0. lens. consts. lia.
    + destruct (str_eqb n EMPTYSTRING); [apply W_put0; lens; lia|]. destruct (contains DQ n) eqn:C.
      * apply (W_raw0 _ (dquoted n false false)). pose proof (dquoted_len n false false). lia.
      * rewrite (no_contains _ _ C). apply W_put0. lens. lia.
    + destruct (contains SQ n) eqn:C.
      * eapply W_bind with (r1 := slen n + 100 - 1); [apply (W_put _ (S_ "-")); consts; lia|].
        apply W_raw0. rewrite quoted_len. lia.
      * destruct (should_quote n); apply W_put0; lens; consts; lia.
    + destruct (str_eqb n EMPTYSTRING); [apply W_put0; lens; lia|]. destruct (contains SQ n) eqn:C.
      * apply W_raw0. rewrite quoted_len. lia.
      * destruct (should_quote n); apply W_put0; lens; consts; lia.
  - unfold print_var. pose proof (var_name_len m i).
    eapply W_guar with (n := 20); [lia|lia| |reflexivity|].
    { match goal with |- _ <= ?x + _ => enough (0 <= x) by lia end. apply slen_pos. }
    destruct m; apply W_put0; lens; consts; lia.
  - pose proof (slen_pos n). eapply W_guar with (n := slen n + 50); [lia|lia| |intro; lia|].
    { match goal with |- _ <= ?x + _ => enough (0 <= x) by lia end. apply slen_pos. }
    destruct m, neg; apply W_put0; lens; consts; lia.
Qed.

(** * Terms and clauses *)
Fixpoint fits_term (t : tm) : Prop :=
  match t with
  | Leaf v => fits v
  | Rec fs => (fix every (l : list tm) : Prop :=
                 match l with
                 | [] => True
                 | f :: r => (match f with Rec _ => fits_term f | Leaf v => fits_leaf v end) /\ every r
                 end) fs
  end.
Definition fits_field (f : tm) : Prop := match f with Rec _ => fits_term f | Leaf v => fits_leaf v end.
Lemma fits_rec fs : fits_term (Rec fs) -> Forall fits_field fs.
Proof.
  cbn [fits_term]. induction fs as [|f r IH]; intros H; constructor; [apply H | apply IH, H].
Qed.
Definition fits_afield (f : tm) : Prop := match f with Rec _ => fits_term f | Leaf v => fits v end.
Definition fits_clause (c : option clause) : Prop :=
  match c with
  | None => True
  | Some (Rule l) =>
      Forall (fun p => match snd p with
                       | Rec fs => match m with Json => Forall fits_afield fs | Plain => fits_term (Rec fs) end
                       | Leaf v => fits v
                       end) l
  | Some (Fact fs) => Forall fits_afield fs
  end.

Fixpoint t_fields (k : nat) (l : list tm) (b : buf) : res :=
  match l with
  | [] => Ok b
  | f :: r =>
      let* b := guarantee b (pos b + 10) in
      let* b := (if (1 <? k)%nat then put b (S_ ",") else Ok b) in
      let* b := (match f with Rec _ => term fmt m f b | Leaf v => term_leaf fmt m v b end) in
      let* b := guarantee b (pos b + 10) in
      let* b := (if (k =? 0)%nat
                 then put b (match m with Json => S_ "," | Plain => S_ "(" end)
                 else Ok b) in
      t_fields (S k) r b
  end.
Lemma term_rec fs b : term fmt m (Rec fs) b =
  let* b := guarantee b (pos b + 10) in
  let* b := (match m with Json => put b (S_ "[") | Plain => Ok b end) in
  let* b := t_fields O fs b in
  let* b := guarantee b (pos b + 10) in
  put b (match m with Json => S_ "]" | Plain => S_ ")" end).
Proof. reflexivity. Qed.

Lemma tm_ind' (P : tm -> Prop) : (forall v, P (Leaf v)) -> (forall fs, Forall P fs -> P (Rec fs)) -> forall t, P t.
Proof.
  intros HL HR. fix self 1. intros [v|fs]; [apply HL|]. apply HR.
  induction fs as [|f r IH]; constructor; [apply self | exact IH].
Qed.

Lemma W_guar10 r' (k : buf -> res) s : W 10 r' k s -> W 0 r' (fun b => bind (guarantee b (pos b + 10)) k) s.
Proof. intros H. eapply W_guar with (n := 10); [lia|lia| |reflexivity|exact H]. pose proof (slen_pos s). lia. Qed.
Lemma W_comma k : W 10 9 (fun b => if (1 <? k)%nat then put b (S_ ",") else Ok b) (comma k).
Proof.
  unfold comma. destruct (1 <? k)%nat.
  - eapply W_weak; [apply (W_put 10); consts; lia | lia | consts; lia].
  - apply W_ret0; lia.
Qed.
Lemma term_leaf_W v : fits_leaf v -> W 9 0 (term_leaf fmt m v) (tx_leaf v).
Proof.
  intros (F & O). unfold term_leaf, tx_leaf.
  destruct v as [|z|d|s|p n|i|n]; try (eapply W_weak; [apply (simple_W _ false F)|lia|lia]).
  destruct (op_name n) as [s|]; [apply W_put0; lia|]. eapply W_weak; [apply (simple_W _ false F)|lia|lia].
Qed.
Lemma W_opening k : W 10 0 (fun b => if (k =? 0)%nat then put b (match m with Json => S_ "," | Plain => S_ "(" end) else Ok b) (opening k).
Proof.
  unfold opening. destruct (k =? 0)%nat.
  - destruct m; apply W_put0; consts; lia.
  - apply W_ret0; lia.
Qed.
Lemma t_fields_W l : Forall fits_field l -> Forall (fun t => fits_term t -> W 0 0 (term fmt m t) (tx_term t)) l ->
  forall k, W 0 0 (t_fields k l) (tx_fields k l).
Proof.
  induction l as [|f r IH]; intros F H k; cbn [t_fields tx_fields].
  - apply W_ret.
  - inversion F; inversion H; subst. apply W_guar10.
    eapply W_bind; [apply W_comma|]. eapply W_bind with (r1 := 0).
    + destruct f as [v|fs]; cbn [fits_field] in *; [apply term_leaf_W; assumption|].
      eapply W_weak; [auto|lia|lia].
    + apply W_guar10. eapply W_bind; [apply W_opening|]. apply IH; assumption.
Qed.
Lemma W_start : W 10 0 (fun b => match m with Json => put b (S_ "[") | Plain => Ok b end) (match m with Json => S_ "[" | Plain => [] end).
Proof. destruct m; [apply W_put0; consts; lia | apply W_ret0; lia]. Qed.
Lemma term_W t : fits_term t -> W 0 0 (term fmt m t) (tx_term t).
Proof.
  induction t as [v|fs IH] using tm_ind'; intros F.
  - apply (simple_W v false F).
  - rewrite tx_rec. eapply W_ext; [|intro; apply term_rec|reflexivity].
    apply W_guar10. eapply W_bind; [apply W_start|]. eapply W_bind.
    + apply t_fields_W; [apply fits_rec; exact F|exact IH].
    + apply W_guar10. destruct m; apply W_put0; consts; lia.
Qed.
Lemma W_aopening k (r : list tm) : W 10 0 (fun b =>
    if (k =? 0)%nat then match m with Json => match r with [] => Ok b | _ => put b (S_ ",") end | Plain => put b (S_ "(") end else Ok b)
  (aopening k r).
Proof.
  unfold aopening. destruct (k =? 0)%nat; [destruct m; [destruct r|]|]; try (apply W_put0; consts; lia);
    (apply W_ret0; lia).
Qed.
Lemma afields_W neg l : Forall fits_afield l -> forall k, W 0 0 (atom_fields fmt m neg k l) (tx_afields neg k l).
Proof.
  induction l as [|f r IH]; intros F k; cbn [atom_fields tx_afields].
  - apply W_ret.
  - inversion F; subst. apply W_guar10.
    eapply W_bind; [apply W_comma|]. eapply W_bind with (r1 := 0).
    + destruct f as [v|fs]; cbn [fits_afield] in *.
      * eapply W_weak; [apply simple_W; assumption|lia|lia].
      * eapply W_weak; [apply term_W; assumption|lia|lia].
    + apply W_guar10. eapply W_bind; [apply W_aopening|]. apply IH; assumption.
Qed.
Lemma atom_W fs neg : Forall fits_afield fs -> W 0 0 (atom fmt m fs neg) (tx_atom fs neg).
Proof.
  intros F. unfold atom, tx_atom. apply W_guar10. eapply W_bind; [apply W_start|]. eapply W_bind; [apply afields_W; exact F|].
  apply W_guar10. destruct m; apply W_put0; consts; lia.
Qed.
Lemma lits_W l : fits_clause (Some (Rule l)) -> forall i, W 0 0 (rule_lits fmt m i l) (tx_lits i l).
Proof.
  cbn [fits_clause]. induction l as [|[neg t] r IH]; intros F i; cbn [rule_lits tx_lits].
  - apply W_ret.
  - inversion F; subst. cbn [snd] in *. eapply W_bind with (r1 := 0).
    + destruct (0 <? i)%nat; [|apply W_ret]. apply W_guar10. destruct m; apply W_put0; consts; lia.
    + apply W_guar10. eapply W_bind with (r1 := 0).
      { destruct m; [apply W_ret0; lia|].
        destruct neg; [apply W_put0; consts; lia|apply W_ret0; lia]. }
      eapply W_bind with (r1 := 0); [|apply IH; assumption].
      destruct t as [v|fs]; [apply simple_W; assumption|].
      destruct m eqn:M; [rewrite <- M in *; apply atom_W; assumption | rewrite <- M in *; apply term_W; assumption].
Qed.
Lemma clause_W c : fits_clause c -> W 0 0 (print_clause fmt m c) (tx_clause c).
Proof.
  intros F. unfold print_clause. apply W_guar10. destruct c as [[l|fs]|].
  - eapply W_weak with (r := 0) (r' := 0); [|lia|lia]. apply W_guar10.
    eapply W_weak with (r := 0) (r' := 0); [|lia|lia]. unfold rule_clause. cbn [tx_clause]. apply W_guar10.
    eapply W_bind; [apply W_start|]. eapply W_bind; [apply lits_W; exact F|].
    apply W_guar10. destruct m; apply W_put0; consts; lia.
  - eapply W_weak with (r := 0) (r' := 0); [|lia|lia]. apply W_guar10.
    eapply W_weak with (r := 0) (r' := 0); [|lia|lia]. unfold fact_clause. cbn [tx_clause]. cbn [fits_clause] in F.
    apply W_guar10. pose proof (atom_W fs false F) as A. destruct m.
    + eapply W_bind with (r1 := 0); [apply W_put0; consts; lia|]. eapply W_bind; [exact A|].
      apply W_guar10. apply W_put0; consts; lia.
    + eapply W_bind with (r1 := 0); [eapply W_weak; [exact A|lia|lia]|].
      apply W_guar10. apply W_put0; consts; lia.
  - apply W_put0. cbn [tx_clause]. consts. lia.
Qed.
Lemma clause_exact c b : fits_clause c -> sound b -> pos b + slen (tx_clause c) + 300 <= LIM ->
  exists b', print_clause fmt m c b = Ok b' /\ txt b' = txt b ++ tx_clause c /\ sound b'.
Proof.
  intros F (B & P) L. destruct (clause_W c F b) as (b' & E & T & B' & P'); try lia.
  exists b'. repeat split; auto; lia.
Qed.

(** * Never outside the buffer *)
Definition N0 (k : buf -> res) : Prop := N None None k.
Lemma N_guar10 o o' (k : buf -> res) : N (Some 10) o' k -> N o o' (fun b => bind (guarantee b (pos b + 10)) k).
Proof. intros H. eapply N_guar; [reflexivity|exact H]. Qed.
Lemma N_put10 r s : 0 <= r -> N (Some r) None (fun b => put b s).
Proof. apply N_put. Qed.
Lemma simple_N v neg : qbound v -> N0 (simple fmt m v neg).
Proof.
  intros Q. unfold simple. eapply N_guar; [reflexivity|].
  destruct v as [|z|d|s|[p|] n|i|n]; cbn [qbound] in Q; try (apply N_put; lia).
  - apply N_any. eapply N_guar with (n := slen s + 50); [intro; lia|]. pose proof (slen_pos s).
    destruct m; apply N_put; lia.
  - apply N_any. pose proof (slen_pos p). pose proof (slen_pos n). destruct Q as (Q1 & Q2).
    eapply N_guar with (n := slen n + slen p + 100); [intro; lia|].
    destruct m.
    + pose proof (dquoted_len n neg (is_hash p)).
      destruct (contains DQ n); [apply N_raw; lia | apply N_put; lia].
    + pose proof (quoted2_len p n). destruct neg.
      * eapply N_bind; [apply (N_put_fit _ (S_ "-")); consts; lia | apply N_raw; consts; lia].
      * apply N_raw; lia.
  - apply N_any. pose proof (slen_pos n). destruct Q as (Q1 & Q2).
    eapply N_guar with (n := slen n + 100); [intro; lia|].
    destruct m, neg.
    + pose proof (dquoted_len n true false). destruct (contains DQ n); [apply N_raw; lia | apply N_put; lia].
    + pose proof (dquoted_len n false false).
      destruct (str_eqb n EMPTYSTRING); [apply N_put; lia|]. destruct (contains DQ n); [apply N_raw; lia | apply N_put; lia].
    + destruct (contains SQ n).
      * eapply N_bind; [apply (N_put_fit _ (S_ "-")); consts; lia|]. apply N_raw. rewrite quoted_len. consts. lia.
      * destruct (should_quote n); apply N_put; lia.
    + destruct (str_eqb n EMPTYSTRING); [apply N_put; lia|]. destruct (contains SQ n).
      * apply N_raw. rewrite quoted_len. lia.
      * destruct (should_quote n); apply N_put; lia.
  - apply N_any. unfold print_var. eapply N_guar; [reflexivity|]. destruct m; apply N_put; lia.
  - apply N_any. pose proof (slen_pos n). eapply N_guar with (n := slen n + 50); [intro; lia|].
    destruct m, neg; apply N_put; lia.
Qed.
Lemma every_term P fs : in_term P (Rec fs) -> Forall (in_term P) fs.
Proof. cbn [in_term]. induction fs as [|f r IH]; intros H; constructor; [apply H|apply IH, H]. Qed.
Lemma N_comma k : N (Some 10) (Some 9) (fun b => if (1 <? k)%nat then put b (S_ ",") else Ok b).
Proof.
  destruct (1 <? k)%nat; [apply (N_put_fit 10 (S_ ",")); consts; lia|]. intros b H. cbn in *. lia.
Qed.
Lemma t_fields_N l : Forall (in_term qbound) l -> Forall (fun t => in_term qbound t -> N0 (term fmt m t)) l ->
  forall k, N0 (t_fields k l).
Proof.
  induction l as [|f r IH]; intros F H k; cbn [t_fields].
  - apply N_ret.
  - inversion F; inversion H; subst. apply N_guar10. eapply N_bind; [apply N_comma|]. eapply N_bind with (o1 := None).
    + destruct f as [v|fs]; [|apply N_any; unfold N0 in *; auto]. unfold term_leaf.
      destruct v as [|z|d|s|p n|i|n]; try (apply N_any, simple_N; assumption).
      destruct (op_name n); [apply N_put; lia|apply N_any, simple_N; assumption].
    + apply N_guar10. eapply N_bind with (o1 := None).
      * destruct (k =? 0)%nat; [apply N_put; lia|]. intros b _. exact Logic.I.
      * apply IH; assumption.
Qed.
Lemma N_start : N (Some 10) None (fun b => match m with Json => put b (S_ "[") | Plain => Ok b end).
Proof. destruct m; [apply N_put; lia|]. intros b _. exact Logic.I. Qed.
Lemma term_N t : in_term qbound t -> N0 (term fmt m t).
Proof.
  induction t as [v|fs IH] using tm_ind'; intros F.
  - apply simple_N. exact F.
  - intros b R. rewrite term_rec. revert b R.
    change (N None None (fun b => let* b := guarantee b (pos b + 10) in
      let* b := (match m with Json => put b (S_ "[") | Plain => Ok b end) in
      let* b := t_fields O fs b in
      let* b := guarantee b (pos b + 10) in
      put b (match m with Json => S_ "]" | Plain => S_ ")" end))).
    apply N_guar10. eapply N_bind; [apply N_start|]. eapply N_bind.
    + apply t_fields_N; [apply every_term; exact F|exact IH].
    + apply N_guar10. apply N_put. lia.
Qed.
Lemma afields_N neg l : Forall (in_term qbound) l -> forall k, N0 (atom_fields fmt m neg k l).
Proof.
  induction l as [|f r IH]; intros F k; cbn [atom_fields].
  - apply N_ret.
  - inversion F; subst. apply N_guar10. eapply N_bind; [apply N_comma|]. eapply N_bind with (o1 := None).
    + destruct f as [v|fs]; [apply N_any, simple_N; assumption|apply N_any, term_N; assumption].
    + apply N_guar10. eapply N_bind with (o1 := None).
      * destruct (k =? 0)%nat; [destruct m; [destruct r|]|]; try (apply N_put; lia); intros b _; exact Logic.I.
      * apply IH; assumption.
Qed.
Lemma atom_N fs neg : Forall (in_term qbound) fs -> N0 (atom fmt m fs neg).
Proof.
  intros F. unfold atom. apply N_guar10. eapply N_bind; [apply N_start|]. eapply N_bind; [apply afields_N; exact F|].
  apply N_guar10. apply N_put. lia.
Qed.
Lemma fields_in P t : Forall (in_term P) (fields t) -> in_term P t.
Proof.
  destruct t as [v|fs]; cbn [fields]; intros H; [inversion H; assumption|].
  cbn [in_term]. induction H as [|f r Hf Hr IH]; [exact Logic.I|split; assumption].
Qed.
Lemma lits_N l : in_clause qbound (Some (Rule l)) -> forall i, N0 (rule_lits fmt m i l).
Proof.
  cbn [in_clause literals]. induction l as [|[neg t] r IH]; intros F i; cbn [rule_lits].
  - apply N_ret.
  - inversion F; subst. cbn [fst snd] in *. eapply N_bind with (o1 := None).
    + destruct (0 <? i)%nat; [|apply N_ret]. apply N_guar10. apply N_put. lia.
    + apply N_guar10. eapply N_bind with (o1 := None).
      { destruct m; [intros b _; exact Logic.I|]. destruct neg; [apply N_put; lia|intros b _; exact Logic.I]. }
      eapply N_bind with (o1 := None); [|apply IH; assumption].
      destruct t as [v|fs]; [apply simple_N; apply (fields_in _ (Leaf v)); assumption|].
      cbn [fields] in *.
      destruct m eqn:M; [rewrite <- M in *; apply atom_N; assumption|].
      rewrite <- M in *. apply term_N. apply (fields_in _ (Rec fs)). assumption.
Qed.
Lemma clause_N c b : in_clause qbound c -> print_clause fmt m c b <> Overrun.
Proof.
  intros F. assert (H : N0 (print_clause fmt m c)).
  { unfold print_clause. apply N_guar10. destruct c as [[l|fs]|]; [| |apply N_put; lia].
    - apply N_any. apply N_guar10. unfold rule_clause. apply N_any. apply N_guar10.
      eapply N_bind; [apply N_start|]. eapply N_bind; [apply lits_N; exact F|]. apply N_guar10. apply N_put. lia.
    - apply N_any. apply N_guar10. unfold fact_clause. apply N_any. apply N_guar10.
      cbn [in_clause literals] in F. inversion F; subst. cbn [snd] in *. pose proof (atom_N fs false H1) as A.
      destruct m.
      + eapply N_bind; [apply N_put; lia|]. eapply N_bind; [exact A|]. apply N_guar10. apply N_put; lia.
      + eapply N_bind; [apply N_any; exact A|]. apply N_guar10. apply N_put; lia. }
  specialize (H b Logic.I). destruct (print_clause fmt m c b); [discriminate|discriminate|destruct H].
Qed.
End Text.
