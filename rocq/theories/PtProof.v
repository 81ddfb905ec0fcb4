(** Printed clauses are JSON texts of the value of the clause, and the value gives the clause. *)
From Coq Require Import String Ascii List ZArith Bool Lia.
From Verif Require Import Word64 PtModel PtSpec PtBase PtJson.
Import ListNotations.
Open Scope string_scope.
Open Scope Z_scope.
Open Scope list_scope.

Lemma str_eqb_eq a b : str_eqb a b = true <-> a = b.
Proof. unfold str_eqb. destruct (list_eq_dec ascii_dec a b); split; congruence. Qed.

(** * Decimals *)
Lemma digit_cases z : 0 <= z < 10 -> z = 0 \/ z = 1 \/ z = 2 \/ z = 3 \/ z = 4 \/ z = 5 \/ z = 6 \/ z = 7 \/ z = 8 \/ z = 9.
Proof. lia. Qed.
Lemma digit_is z : 0 <= z < 10 -> is_digit (digit z) = true /\ Z.of_nat (nat_of_ascii (digit z)) - 48 = z /\ (z <> 0 -> digit z <> ch 48).
Proof.
  intros H. apply digit_cases in H.
  repeat (destruct H as [->|H]; [split; [reflexivity|split; [reflexivity|intros; discriminate || congruence]]|]).
  subst z. split; [reflexivity|split; [reflexivity|discriminate]].
Qed.
Lemma dval_app s : forall acc t, dval acc (s ++ t) = dval (dval acc s) t.
Proof. induction s as [|a s IH]; intros; [reflexivity|]. cbn [app dval]. apply IH. Qed.
Lemma digits_val f : forall z, 0 <= z < 10 ^ Z.of_nat f -> f <> O ->
  all is_digit (digits f z) /\ dval 0 (digits f z) = z /\ digits f z <> [] /\
  (z <> 0 -> forall r, digits f z <> ch 48 :: r) /\ (z = 0 -> digits f z = S_ "0").
Proof.
  induction f as [|f IH]; intros z Hz Hf; [congruence|]. cbn [digits]. destruct (Z.ltb_spec z 10).
  - destruct (digit_is z ltac:(lia)) as (D & V & Z0). unfold all. cbn [forallb dval]. rewrite D, V.
    split; [reflexivity|]. split; [lia|]. split; [discriminate|]. split.
    + intros Hn r E. injection E as E _. apply Z0 in Hn. congruence.
    + intros ->. reflexivity.
  - assert (Hq : 0 <= z / 10 < 10 ^ Z.of_nat f).
    { rewrite Nat2Z.inj_succ, Z.pow_succ_r in Hz by lia. split; [apply Z.div_pos; lia|]. apply Z.div_lt_upper_bound; lia. }
    assert (Hf' : f <> O). { intros ->. cbn in Hq. pose proof (Z.div_le_mono 10 z 10 ltac:(lia) ltac:(lia)). change (10 / 10) with 1 in *. lia. }
    destruct (IH _ Hq Hf') as (A & V & E & Z0 & _).
    destruct (digit_is (z mod 10)) as (D & V' & _); [apply Z.mod_pos_bound; lia|].
    assert (1 <= z / 10) by (apply (Z.div_le_mono 10 z 10); lia).
    split; [apply all_app; [exact A|]; unfold all; cbn [forallb]; rewrite D; reflexivity|].
    split; [rewrite dval_app, V; cbn [dval]; rewrite V'; pose proof (Z.div_mod z 10); lia|].
    split; [intros C; apply app_eq_nil in C; destruct C; discriminate|].
    split; [|lia]. intros _ r. destruct (digits f (z / 10)) as [|a t]; [congruence|].
    intros C. injection C as -> _. apply (Z0 ltac:(lia) t). reflexivity.
Qed.
Lemma digits_int f z : 0 <= z < 10 ^ Z.of_nat f -> f <> O -> int_part (digits f z).
Proof.
  intros H F. destruct (digits_val f z H F) as (A & _ & E & Z0 & Z1). destruct (Z.eq_dec z 0) as [->|N].
  - left. auto.
  - right. split; [split; auto|]. auto.
Qed.
Lemma first_digit s : all is_digit s -> forall a r, s = a :: r -> Ascii.eqb a (ch 45) = false.
Proof.
  intros A a r ->. unfold all in A. cbn [forallb] in A. apply andb_true_iff in A. destruct A as (A & _).
  destruct (Ascii.eqb a (ch 45)) eqn:E; [|reflexivity]. apply Ascii.eqb_eq in E. subst a. discriminate A.
Qed.
Lemma dec_ok z : - 2 ^ 31 <= z < 2 ^ 31 -> number (dec z) /\ int_value (dec z) = z /\ ~ In (ch 46) (dec z).
Proof.
  intros H. unfold dec. assert (L : 2 ^ 31 < 10 ^ Z.of_nat 10) by reflexivity.
  assert (ND : forall s, all is_digit s -> ~ In (ch 46) s).
  { intros s A I. unfold all in A. rewrite forallb_forall in A. apply A in I. discriminate I. }
  destruct (Z.ltb_spec z 0).
  - destruct (digits_val 10 (- z)) as (A & V & _); [lia|discriminate|]. split; [|split].
    + exists [ch 45], (digits 10 (- z)), [], []. rewrite !app_nil_r. repeat split; auto. apply digits_int; [lia|discriminate].
    + unfold int_value. change (Ascii.eqb (ch 45) (ch 45)) with true. cbn iota. rewrite V. lia.
    + intros [I|I]; [discriminate|]. exact (ND _ A I).
  - destruct (digits_val 10 z) as (A & V & E & _); [lia|discriminate|]. split; [|split].
    + exists [], (digits 10 z), [], []. rewrite !app_nil_r. repeat split; auto. apply digits_int; [lia|discriminate].
    + unfold int_value. destruct (digits 10 z) as [|a r] eqn:D; [congruence|]. rewrite (first_digit (a :: r) A a r eq_refl). exact V.
    + exact (ND _ A).
Qed.
Lemma w32_small z : - 2 ^ 31 <= z < 2 ^ 31 -> w32 z = z.
Proof. intros. apply w32_id. lia. Qed.

(** * The names of variables *)
Lemma dec_inj x y : - 2 ^ 31 <= x < 2 ^ 31 -> - 2 ^ 31 <= y < 2 ^ 31 -> dec x = dec y -> x = y.
Proof. intros Hx Hy E. destruct (dec_ok x Hx) as (_ & <- & _). destruct (dec_ok y Hy) as (_ & <- & _). rewrite E. reflexivity. Qed.
Lemma dec_first x : 0 <= x < 2 ^ 31 -> exists a r, dec x = a :: r /\ is_digit a = true.
Proof.
  intros H. unfold dec. assert (L : 2 ^ 31 < 10 ^ Z.of_nat 10) by reflexivity.
  destruct (Z.ltb_spec x 0); [lia|]. destruct (digits_val 10 x) as (A & _ & E & _); [lia|discriminate|].
  destruct (digits 10 x) as [|a r]; [congruence|]. exists a, r. split; auto. unfold all in A. cbn [forallb] in A.
  apply andb_true_iff in A. tauto.
Qed.
Lemma var_cases m i : (exists p, In p var_names /\ fst p = i /\ var_name m i = S_ (snd p)) \/
  ((forall p, In p var_names -> fst p <> i) /\ var_name m i = match m with Json => dec (w32 i) | Plain => S_ "X" ++ dec (w32 i) end).
Proof.
  unfold var_name. destruct (find _ var_names) as [p|] eqn:E.
  - left. apply find_some in E. destruct E as (I & E). apply Z.eqb_eq in E. eauto.
  - right. split; [|reflexivity]. intros p I F. pose proof (find_none _ _ E p I) as X. cbn in X. rewrite F, Z.eqb_refl in X. discriminate.
Qed.
Lemma table_inj p q : In p var_names -> In q var_names -> snd p = snd q -> fst p = fst q.
Proof.
  intros H G. repeat (destruct H as [<-|H]; [repeat (destruct G as [<-|G]; [cbn; reflexivity || discriminate|]); destruct G|]). destruct H.
Qed.
Lemma S_inj a b : S_ a = S_ b -> a = b.
Proof.
  unfold S_. intros E. apply (f_equal string_of_list_ascii) in E. rewrite !string_of_list_ascii_of_string in E. exact E.
Qed.
Lemma table_first p : In p var_names -> exists a r, S_ (snd p) = a :: r /\ is_digit a = false.
Proof. intros H. repeat (destruct H as [<-|H]; [do 2 eexists; split; reflexivity|]). destruct H. Qed.
Lemma var_inj i j : 0 <= i < 2 ^ 31 -> 0 <= j < 2 ^ 31 -> var_name Json i = var_name Json j -> i = j.
Proof.
  intros Hi Hj E.
  destruct (var_cases Json i) as [(p & Ip & Fp & Ep)|(Np & Ep)], (var_cases Json j) as [(q & Iq & Fq & Eq)|(Nq & Eq)]; rewrite Ep, Eq in E.
  - apply S_inj in E. rewrite <- Fp, <- Fq. apply table_inj; auto.
  - exfalso. destruct (table_first p Ip) as (a & r & Ea & Da). rewrite w32_small in E by lia.
    destruct (dec_first j Hj) as (c & t & Ec & Dc). congruence.
  - exfalso. destruct (table_first q Iq) as (a & r & Ea & Da). rewrite w32_small in E by lia.
    destruct (dec_first i Hi) as (c & t & Ec & Dc). congruence.
  - rewrite !w32_small in E by lia. apply dec_inj in E; lia.
Qed.

(** * The text is the value *)
Lemma esc_chars n : Forall (fun a => (32 <= nat_of_ascii a)%nat /\ a <> BS) n -> chars (map Byte n) (esc DQ n).
Proof.
  induction 1 as [|a n (P & B) _ IH]; [constructor|]. unfold esc in *. cbn [map flat_map].
  destruct (Ascii.eqb a DQ) eqn:E.
  - apply Ascii.eqb_eq in E. subst a. cbn [app]. apply C_esc; [left; reflexivity|exact IH].
  - cbn [app]. apply C_plain; [|exact IH]. split; [exact P|]. split; [|exact B]. intros ->. rewrite Ascii.eqb_refl in E. discriminate.
Qed.
Lemma chars_app l s l' s' : chars l s -> chars l' s' -> chars (l ++ l') (s ++ s').
Proof. induction 1; intros; cbn [app]; auto; constructor; auto. Qed.
Lemma plain_ok c : (32 <= nat_of_ascii c)%nat -> c <> DQ -> c <> BS -> plain_char c.
Proof. repeat split; auto. Qed.
Lemma plain_chars s : Forall plain_char s -> chars (map Byte s) s.
Proof. induction 1; constructor; auto. Qed.
Lemma bytes_value s t : chars (map Byte s) t -> value (bytes s) (DQ :: t ++ [DQ]).
Proof. apply V_str. Qed.
Lemma chars_pre p s t : Forall plain_char p -> chars (map Byte s) t -> chars (map Byte (p ++ s)) (p ++ t).
Proof. intros P C. rewrite map_app. apply chars_app; auto using plain_chars. Qed.
Ltac plains := repeat (constructor; [apply plain_ok; [vm_compute; lia|discriminate|discriminate]|]); constructor.
Lemma pl_minus : Forall plain_char (S_ "-").
Proof. plains. Qed.
Lemma pl_hash : Forall plain_char (S_ "#:").
Proof. plains. Qed.
Lemma pl_var : Forall plain_char (S_ "?:").
Proof. plains. Qed.

Section Text.
Variable fmt : Z -> str.
Notation nm := (var_name Json).
Notation num := (fun z => dec (w32 z)).
Notation tj := (term_json nm num fmt).

Lemma var_chars i : 0 <= i < 2 ^ 31 -> Forall plain_char (nm i).
Proof.
  intros H. destruct (var_cases Json i) as [(p & Ip & _ & ->)|(_ & ->)].
  - repeat (destruct Ip as [<-|Ip]; [plains|]). destruct Ip.
  - rewrite w32_small by lia. unfold dec. assert (L : 2 ^ 31 < 10 ^ Z.of_nat 10) by reflexivity.
    destruct (Z.ltb_spec i 0); [lia|]. destruct (digits_val 10 i) as (A & _); [lia|discriminate|].
    unfold all in A. rewrite forallb_forall in A. apply Forall_forall. intros a I. apply A in I.
    unfold is_digit in I. apply existsb_exists in I. destruct I as (x & I & E). apply Ascii.eqb_eq in E. subst x. cbn in I.
    repeat (destruct I as [<-|I]; [apply plain_ok; [vm_compute; lia|discriminate|discriminate]|]). destruct I.
Qed.
(** A symbol, with the sign before a predicate. *)
Lemma uri_value p n neg : clean_name n -> (neg = true -> n <> S_ "$emptystr") ->
  value (bytes ((if neg then S_ "-" else []) ++ sym_text p n)) (tx_simple fmt Json (VUri p n) neg).
Proof.
  intros (C & _) HE. apply esc_chars in C. unfold sym_text, distinct_pre. destruct p as [p|]; cbn [tx_simple]; unfold is_hash.
  - destruct (str_eqb p (S_ "#")), neg; cbn [app]; rewrite ?app_assoc; cbn [app]; apply bytes_value; auto.
    + apply (chars_pre (S_ "-" ++ S_ "#:")); auto. apply Forall_app; auto using pl_minus, pl_hash.
    + apply (chars_pre (S_ "#:")); auto using pl_hash.
    + apply (chars_pre (S_ "-")); auto using pl_minus.
  - change EMPTYSTRING with (S_ "$emptystr"). destruct neg.
    + destruct (str_eqb n (S_ "$emptystr")) eqn:E; [apply str_eqb_eq in E; exfalso; apply HE; auto|].
      apply (bytes_value _ (S_ "-" ++ esc DQ n)). apply (chars_pre (S_ "-")); auto using pl_minus.
    + destruct (str_eqb n (S_ "$emptystr")); [apply (bytes_value [] []); constructor | apply bytes_value; auto].
Qed.
Lemma leaf_value v : clean_leaf fmt v -> value (leaf_json nm num fmt v) (tx_simple fmt Json v false).
Proof.
  destruct v as [|z|d|s|p n|i|n]; cbn [clean_leaf leaf_json]; try tauto.
  - intros H. cbn [tx_simple]. rewrite w32_small by exact H. apply V_num. apply dec_ok. exact H.
  - intros (H & _). apply V_num. exact H.
  - intros (H & _). apply (uri_value p n false); auto. discriminate.
  - intros H. cbn [tx_simple]. rewrite app_assoc. apply bytes_value. apply plain_chars. apply Forall_app. split; [exact pl_var|]. apply var_chars. exact H.
Qed.
Lemma no_op v : ~ is_op v -> tx_leaf fmt Json v = tx_simple fmt Json v false.
Proof.
  destruct v as [| | | |p n| |]; try reflexivity. intros H. unfold tx_leaf, op_name.
  cbn [is_op map In] in H.
  repeat match goal with |- context [str_eqb n ?x] => let E := fresh in destruct (str_eqb n x) eqn:E; [apply str_eqb_eq in E; subst n; tauto|clear E] end.
  reflexivity.
Qed.
Definition tfield (f : tm) : str := match f with Rec _ => tx_term fmt Json f | Leaf v => tx_leaf fmt Json v end.
Lemma clean_rec fs : clean_term fmt (Rec fs) ->
  (2 <= length fs)%nat /\ Forall (fun f => clean_term fmt f /\ match f with Leaf v => ~ is_op v | Rec _ => True end) fs.
Proof.
  intros (L & H). split; [exact L|]. clear L. induction fs as [|f r IH]; constructor; [tauto|apply IH; tauto].
Qed.
Lemma fields_idx k l : (2 <= k)%nat -> tx_fields fmt Json k l = tx_fields fmt Json 2 l.
Proof.
  revert k. enough (H : forall k k', (2 <= k)%nat -> (2 <= k')%nat -> tx_fields fmt Json k l = tx_fields fmt Json k' l) by (intros; apply H; lia).
  induction l as [|f r IH]; intros k k' Hk Hk'; [reflexivity|]. cbn [tx_fields].
  rewrite (IH (S k) (S k')) by lia. unfold comma, opening. destruct k as [|[|k]], k' as [|[|k']]; try lia. reflexivity.
Qed.
Lemma fields_items l : l <> [] -> Forall (fun f => value (tj f) (tfield f)) l -> items (map tj l) (tx_fields fmt Json 1 l).
Proof.
  induction l as [|f r IH]; intros N H; [congruence|]. inversion H as [|? ? V VR]; subst. destruct r as [|g r].
  - cbn [tx_fields comma opening map]. change (tx_fields fmt Json 1 [f]) with ([] ++ tfield f ++ []).
    apply I_one; [reflexivity|exact V|reflexivity].
  - change (map tj (f :: g :: r)) with (tj f :: map tj (g :: r)).
    replace (tx_fields fmt Json 1 (f :: g :: r)) with ([] ++ tfield f ++ [] ++ S_ "," ++ tx_fields fmt Json 1 (g :: r)).
    + apply I_more; [reflexivity|exact V|reflexivity|]. apply IH; [discriminate|exact VR].
    + cbn [tx_fields]. rewrite (fields_idx 3) by lia. unfold comma, opening. cbn [Nat.ltb Nat.leb Nat.eqb app]. reflexivity.
Qed.
Lemma term_value t : clean_term fmt t -> value (tj t) (tx_term fmt Json t).
Proof.
  induction t as [v|fs IH] using tm_ind'; intros H.
  - apply leaf_value. exact H.
  - apply clean_rec in H. destruct H as (L & H). rewrite tx_rec. cbn [term_json]. apply V_arr.
    assert (F : Forall (fun f => value (tj f) (tfield f)) fs).
    { rewrite Forall_forall in *. intros f I. destruct (H f I) as (Cf & Of). destruct f as [v|gs].
      - unfold tfield. rewrite no_op by exact Of. apply leaf_value. exact Cf.
      - apply (IH _ I Cf). }
    destruct fs as [|f [|g r]]; cbn [length] in L; try lia. inversion F; subst.
    change (map tj (f :: g :: r)) with (tj f :: map tj (g :: r)).
    change (tx_fields fmt Json 0 (f :: g :: r)) with ([] ++ tfield f ++ [] ++ S_ "," ++ tx_fields fmt Json 1 (g :: r)).
    apply I_more; [reflexivity|assumption|reflexivity|]. apply fields_items; [discriminate|assumption].
Qed.
Lemma afields_idx neg k l : (2 <= k)%nat -> tx_afields fmt Json neg k l = tx_afields fmt Json neg 2 l.
Proof.
  revert k. enough (H : forall k k', (2 <= k)%nat -> (2 <= k')%nat -> tx_afields fmt Json neg k l = tx_afields fmt Json neg k' l) by (intros; apply H; lia).
  induction l as [|f r IH]; intros k k' Hk Hk'; [reflexivity|]. cbn [tx_afields].
  rewrite (IH (S k) (S k')) by lia. unfold comma, aopening. destruct k as [|[|k]], k' as [|[|k']]; try lia. reflexivity.
Qed.
Lemma afields_S neg k f r : tx_afields fmt Json neg (S k) (f :: r) =
  comma (S k) ++ tx_term fmt Json f ++ aopening Json (S k) r ++ tx_afields fmt Json neg (S (S k)) r.
Proof. destruct f as [v|fs]; cbn [tx_afields Nat.eqb]; rewrite ?andb_false_r; reflexivity. Qed.
Lemma afields_items neg l : l <> [] -> Forall (clean_term fmt) l -> items (map tj l) (tx_afields fmt Json neg 1 l).
Proof.
  induction l as [|f r IH]; intros N H; [congruence|]. inversion H as [|? ? V VR]; subst.
  apply term_value in V. rewrite afields_S. destruct r as [|g r].
  - change (items (map tj [f]) ([] ++ tx_term fmt Json f ++ [])). apply I_one; [reflexivity|exact V|reflexivity].
  - change (map tj (f :: g :: r)) with (tj f :: map tj (g :: r)).
    replace (tx_afields fmt Json neg 2 (g :: r)) with (S_ "," ++ tx_afields fmt Json neg 1 (g :: r)).
    + change (items (tj f :: map tj (g :: r)) ([] ++ tx_term fmt Json f ++ [] ++ S_ "," ++ tx_afields fmt Json neg 1 (g :: r))).
      apply I_more; [reflexivity|exact V|reflexivity|]. apply IH; [discriminate|exact VR].
    + rewrite !afields_S. rewrite (afields_idx neg 3) by lia. reflexivity.
Qed.
Lemma atom_value fs neg : clean_atom fmt fs -> value (lit_json nm num fmt (neg, fs)) (tx_atom fmt Json fs neg).
Proof.
  unfold clean_atom. destruct fs as [|[[| | | |p n| |]|] args]; try tauto. intros (C & _ & E & A).
  cbn [lit_json]. unfold tx_atom. apply V_arr.
  pose proof (uri_value p n neg C (fun _ => E)) as V.
  assert (X : tx_afields fmt Json neg 0 (Leaf (VUri p n) :: args) =
              tx_simple fmt Json (VUri p n) neg ++ aopening Json 0 args ++ tx_afields fmt Json neg 1 args).
  { cbn [tx_afields]. unfold comma. cbn [Nat.ltb Nat.leb Nat.eqb app]. rewrite andb_true_r. reflexivity. }
  rewrite X. destruct args as [|a r].
  - change (items [bytes ((if neg then S_ "-" else []) ++ sym_text p n)] ([] ++ tx_simple fmt Json (VUri p n) neg ++ [])).
    apply I_one; [reflexivity|exact V|reflexivity].
  - change (aopening Json 0 (a :: r)) with (S_ ",").
    apply (I_more _ [] (tx_simple fmt Json (VUri p n) neg) []); [reflexivity|exact V|reflexivity|].
    apply afields_items; [discriminate|exact A].
Qed.
Lemma items_blank l s : items l s -> items l (S_ " " ++ s).
Proof.
  destruct 1; rewrite app_assoc; [apply I_one | apply I_more]; auto; apply all_app; auto; reflexivity.
Qed.
Definition jlit (p : bool * tm) : json := lit_json nm num fmt (fst p, fields (snd p)).
Lemma lits_items l : l <> [] -> clean_clause fmt (Rule l) ->
  forall i, items (map jlit l) (tx_lits fmt Json 0 l) /\ tx_lits fmt Json (S i) l = S_ "," ++ S_ " " ++ tx_lits fmt Json 0 l.
Proof.
  cbn [clean_clause]. induction l as [|[neg t] r IH]; intros N H i; [congruence|]. inversion H as [|? ? V VR]; subst. cbn [snd] in V.
  destruct t as [v|fs]; [destruct V|]. pose proof (atom_value fs neg V) as A. destruct r as [|g r].
  - split; [|reflexivity]. change (items [lit_json nm num fmt (neg, fs)] ([] ++ tx_atom fmt Json fs neg ++ [])).
    apply I_one; [reflexivity|exact A|reflexivity].
  - destruct (IH ltac:(discriminate) VR 0%nat) as (I & E). destruct (IH ltac:(discriminate) VR (S i)) as (_ & E'). split.
    + change (tx_lits fmt Json 0 ((neg, Rec fs) :: g :: r)) with (tx_atom fmt Json fs neg ++ tx_lits fmt Json 1 (g :: r)). rewrite E.
      apply (I_more _ [] (tx_atom fmt Json fs neg) []); [reflexivity|exact A|reflexivity|].
      change (items (map jlit (g :: r)) (S_ " " ++ tx_lits fmt Json 0 (g :: r))). apply items_blank. exact I.
    + change (tx_lits fmt Json (S i) ((neg, Rec fs) :: g :: r)) with (S_ ", " ++ tx_atom fmt Json fs neg ++ tx_lits fmt Json (S (S i)) (g :: r)).
      change (tx_lits fmt Json 0 ((neg, Rec fs) :: g :: r)) with (tx_atom fmt Json fs neg ++ tx_lits fmt Json 1 (g :: r)).
      rewrite E, E'. reflexivity.
Qed.
Lemma clause_value c : clean fmt c -> value (clause_json nm num fmt c) (tx_clause fmt Json c).
Proof.
  destruct c as [[l|fs]|]; cbn [clean clause_json tx_clause literals]; intros H.
  - rewrite map_map. change (value (JArr (map jlit l)) (S_ "[" ++ tx_lits fmt Json 0 l ++ S_ "]")).
    destruct l as [|p r]; [apply (V_arr0 []); reflexivity|]. apply V_arr. apply (lits_items (p :: r)); [discriminate|exact H|exact O].
  - cbn [map]. apply V_arr. rewrite <- (app_nil_r (tx_atom fmt Json fs false)).
    change (items [lit_json nm num fmt (false, fs)] ([] ++ tx_atom fmt Json fs false ++ [])). apply I_one; [reflexivity|apply atom_value; exact H|reflexivity].
  - apply V_false.
Qed.

Lemma clean_fits_leaf v : clean_leaf fmt v -> fits fmt Json v.
Proof. destruct v as [| | | |p n| |]; cbn [clean_leaf fits]; try tauto. intros ((_ & Q) & P). split; [exact Q|]. split; [discriminate|exact P]. Qed.
Lemma op_none p n : ~ is_op (VUri p n) -> op_name n = None.
Proof.
  intros H. unfold op_name. cbn [is_op map In] in H.
  repeat match goal with |- context [str_eqb n ?x] => let E := fresh in destruct (str_eqb n x) eqn:E; [apply str_eqb_eq in E; subst n; tauto|clear E] end.
  reflexivity.
Qed.
Lemma clean_fits_term t : clean_term fmt t -> fits_term fmt Json t.
Proof.
  induction t as [v|fs IH] using tm_ind'; intros H; [apply clean_fits_leaf; exact H|].
  apply clean_rec in H. destruct H as (_ & H). cbn [fits_term].
  induction fs as [|f r IHr]; [exact Logic.I|]. inversion H as [|? ? (Cf & Of) Hr]; inversion IH; subst. split; [|apply IHr; assumption].
  destruct f as [v|gs]; [|auto]. split; [apply clean_fits_leaf; exact Cf|].
  destruct v as [| | | |p n| |]; try exact Logic.I. rewrite (op_none p n Of). exact Logic.I.
Qed.
Lemma clean_fits_atom fs : clean_atom fmt fs -> Forall (fits_afield fmt Json) fs.
Proof.
  unfold clean_atom. destruct fs as [|[[| | | |p n| |]|] args]; try tauto. intros ((_ & Q) & P & _ & A). constructor.
  - split; [exact Q|]. split; [discriminate|exact P].
  - eapply Forall_impl; [|exact A]. intros t H. destruct t; [apply clean_fits_leaf; exact H|apply clean_fits_term; exact H].
Qed.
Lemma clean_fits c : clean fmt c -> fits_clause fmt Json c.
Proof.
  destruct c as [[l|fs]|]; cbn [clean fits_clause clean_clause]; auto.
  - intros H. eapply Forall_impl; [|exact H]. intros [neg [v|fs]]; cbn [snd]; [tauto|apply clean_fits_atom].
  - apply clean_fits_atom.
Qed.
End Text.

(** * The value gives the clause *)
Lemma map_byte_inj a b : map Byte a = map Byte b -> a = b.
Proof. revert b. induction a as [|x a IH]; intros [|y b] E; try discriminate; [reflexivity|]. injection E as -> E. f_equal. auto. Qed.
Lemma bytes_inj a b : bytes a = bytes b -> a = b.
Proof. unfold bytes. intros E. injection E as E. apply map_byte_inj. exact E. Qed.
Lemma hash_pre p : distinct_pre p = true -> p = Some (S_ "#").
Proof. destruct p as [q|]; cbn; [|discriminate]. intros H. apply str_eqb_eq in H. congruence. Qed.

Section Inj.
Variables (fmt : Z -> str) (q : str -> option str) (D : Z -> Prop).
Hypothesis TA : told_apart fmt D.
Notation nm := (var_name Json).
Notation num := (fun z => dec (w32 z)).
Notation R := (readable q D).
Notation tj := (term_json nm num fmt).

Lemma sym_inj p n p' n' : R (VUri p n) -> R (VUri p' n') -> sym_text p n = sym_text p' n' -> p = p' /\ n = n'.
Proof.
  intros (N & M & V & H & P) (N' & M' & V' & H' & P') E. unfold sym_text in E.
  destruct P as [->|(-> & P)], P' as [->|(-> & P')]; rewrite ?P, ?P' in E; change (distinct_pre (Some (S_ "#"))) with true in E; cbn iota in E.
  - apply app_inv_head in E. auto.
  - exfalso. destruct (q n'); [|destruct (str_eqb n' (S_ "$emptystr"))]; try discriminate E; apply H'; exists n; symmetry; exact E.
  - exfalso. destruct (q n); [|destruct (str_eqb n (S_ "$emptystr"))]; try discriminate E; apply H; exists n'; exact E.
  - assert (E' : n = n'); [|subst; auto].
    destruct (q n) eqn:Q; [|destruct (str_eqb n (S_ "$emptystr")) eqn:S]; (destruct (q n') eqn:Q'; [|destruct (str_eqb n' (S_ "$emptystr")) eqn:S']);
      try exact E; try (subst; congruence). apply str_eqb_eq in S, S'. congruence.
Qed.
Lemma sym_not_var p n i : R (VUri p n) -> sym_text p n <> S_ "?:" ++ nm i.
Proof.
  intros (N & M & V & H & P) E. unfold sym_text in E. destruct (distinct_pre p); [discriminate E|].
  destruct p; [|destruct (str_eqb n (S_ "$emptystr")); [discriminate E|]]; apply V; eexists; exact E.
Qed.
Lemma leaf_inj v v' : clean_leaf fmt v -> clean_leaf fmt v' -> R v -> R v' -> leaf_json nm num fmt v = leaf_json nm num fmt v' -> v = v'.
Proof.
  destruct TA as (T1 & T2).
  destruct v as [|z|d|s|p n|i|n], v' as [|z'|d'|s'|p' n'|i'|n']; cbn [clean_leaf]; try tauto; intros C C' r r' E; cbn [leaf_json] in E; try discriminate E.
  - injection E as E. rewrite !w32_small in E by assumption. f_equal. apply dec_inj; auto.
  - exfalso. injection E as E. rewrite w32_small in E by assumption. destruct (dec_ok z C) as (_ & _ & X). apply X. rewrite E. apply T2. exact r'.
  - exfalso. injection E as E. rewrite w32_small in E by assumption. destruct (dec_ok z' C') as (_ & _ & X). apply X. rewrite <- E. apply T2. exact r.
  - injection E as E. f_equal. apply T1; auto.
  - apply bytes_inj in E. destruct (sym_inj _ _ _ _ r r' E) as (-> & ->). reflexivity.
  - apply bytes_inj in E. exfalso. exact (sym_not_var _ _ _ r E).
  - apply bytes_inj in E. exfalso. exact (sym_not_var _ _ _ r' (eq_sym E)).
  - apply bytes_inj in E. apply app_inv_head in E. f_equal. apply var_inj; auto.
Qed.
Lemma leaf_not_arr v l : leaf_json nm num fmt v <> JArr l.
Proof. destruct v; discriminate. Qed.
Lemma term_inj t : forall t', clean_term fmt t -> clean_term fmt t' -> in_term R t -> in_term R t' -> tj t = tj t' -> t = t'.
Proof.
  induction t as [v|fs IH] using tm_ind'; intros [v'|fs'] C C' r r' E.
  - f_equal. apply leaf_inj; auto.
  - exfalso. exact (leaf_not_arr _ _ E).
  - exfalso. symmetry in E. exact (leaf_not_arr _ _ E).
  - f_equal. cbn [term_json] in E. injection E as E.
    apply clean_rec in C, C'. destruct C as (_ & C), C' as (_ & C'). apply every_term in r, r'.
    revert fs' C' r' E. induction fs as [|f fs IHf]; intros [|f' fs'] C' r' E; cbn [map] in E; try discriminate; [reflexivity|].
    injection E as E1 E2. inversion IH; inversion C as [|? ? (? & _) ?]; inversion C' as [|? ? (? & _) ?]; inversion r; inversion r'; subst.
    f_equal; auto.
Qed.
Lemma terms_inj l : forall l', Forall (clean_term fmt) l -> Forall (clean_term fmt) l' -> Forall (in_term R) l -> Forall (in_term R) l' ->
  map tj l = map tj l' -> l = l'.
Proof.
  induction l as [|t l IH]; intros [|t' l'] C C' r r' E; cbn [map] in E; try discriminate; [reflexivity|].
  injection E as E1 E2. inversion C; inversion C'; inversion r; inversion r'; subst. f_equal; [apply term_inj|]; auto.
Qed.
Lemma sym_head p n : R (VUri p n) -> n <> S_ "$emptystr" -> exists a t, sym_text p n = a :: t /\ a <> ch 45.
Proof.
  intros (N & M & V & H & P) E. unfold sym_text. destruct (distinct_pre p).
  - exists (ch 35). eexists. split; [reflexivity|discriminate].
  - assert (X : exists a t, n = a :: t /\ a <> ch 45).
    { destruct n as [|a t]; [congruence|]. exists a, t. split; auto. intros ->. apply M. exists t. reflexivity. }
    destruct p; [exact X|]. destruct (str_eqb n (S_ "$emptystr")) eqn:S; [apply str_eqb_eq in S; congruence|exact X].
Qed.
Lemma lit_inj l l' : clean_atom fmt (snd l) -> clean_atom fmt (snd l') -> Forall (in_term R) (snd l) -> Forall (in_term R) (snd l') ->
  lit_json nm num fmt l = lit_json nm num fmt l' -> l = l'.
Proof.
  destruct l as (neg & fs), l' as (neg' & fs'). cbn [snd]. unfold clean_atom.
  destruct fs as [|[[| | | |p n| |]|] args]; try tauto. destruct fs' as [|[[| | | |p' n'| |]|] args']; try tauto.
  intros (_ & _ & Ne & A) (_ & _ & Ne' & A') r r' E. inversion r as [|? ? R1 R2]; inversion r' as [|? ? R1' R2']; subst. cbn [in_term] in *.
  cbn [lit_json] in E. injection E as E1 E2. apply terms_inj in E2; auto. subst args'. apply map_byte_inj in E1.
  destruct (sym_head p n R1 Ne) as (a & t & Ea & Na), (sym_head p' n' R1' Ne') as (a' & t' & Ea' & Na').
  destruct neg, neg'; cbn [app S_ list_ascii_of_string] in E1.
  - injection E1 as E1. destruct (sym_inj _ _ _ _ R1 R1' E1) as (-> & ->). reflexivity.
  - exfalso. rewrite Ea' in E1. injection E1 as E1 _. apply Na'. symmetry. exact E1.
  - exfalso. rewrite Ea in E1. injection E1 as E1 _. apply Na. exact E1.
  - destruct (sym_inj _ _ _ _ R1 R1' E1) as (-> & ->). reflexivity.
Qed.
Lemma clean_lits c : clean_clause fmt c -> Forall (fun l => clean_atom fmt (snd l)) (literals c).
Proof.
  destruct c as [l|fs]; cbn [clean_clause literals]; intros H.
  - apply Forall_map. eapply Forall_impl; [|exact H]. intros [neg [v|fs]]; cbn; tauto.
  - repeat constructor. exact H.
Qed.
Lemma clause_inj c c' : clean fmt c -> clean fmt c' -> in_clause R c -> in_clause R c' ->
  clause_json nm num fmt c = clause_json nm num fmt c' -> option_map literals c = option_map literals c'.
Proof.
  destruct c as [c|], c' as [c'|]; cbn [clean in_clause clause_json option_map]; intros C C' r r' E; try discriminate; [|reflexivity].
  injection E as E. f_equal. apply clean_lits in C, C'. revert C C' r r' E. generalize (literals c) (literals c').
  intros l. induction l as [|x l IH]; intros [|y l'] C C' r r' E; cbn [map] in E; try discriminate; [reflexivity|].
  injection E as E1 E2. inversion C; inversion C'; inversion r; inversion r'; subst. f_equal; [apply lit_inj|]; auto.
Qed.
End Inj.
