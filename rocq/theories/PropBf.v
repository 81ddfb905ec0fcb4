(** C57: built-in equality, lists and strings do what the documentation says.  (Examples/README.md
    1640-1730.) *)
From Coq Require Import ZArith Bool Lia Floats.SpecFloat Ascii String List.
From Verif Require ArithModel.
From Verif Require Import Terms UnifyModel MatchModel MatchProof EncModel Semantics BfModel BfSpec BfProof.
Import ListNotations.
Open Scope string_scope.
Open Scope Z_scope.

Ltac name_of H := destruct H as (?o & -> & ?E); unfold evaluate, computable, uri_of;
  match goal with E : ?s ?o = LUri _ _ |- context[?s ?o] => rewrite E end;
  cbn [Ascii.eqb Bool.eqb negb look is_ops dollar_ops String.eqb andb orb compute].

(** Built-in equality never decides wrongly: for all terms, in all interpretations in which
    numbers, distinct symbols and lists mean what the documentation says. *)
Theorem C57_equality : forall sym sb ar f a b (M : interp) v,
  interned sym -> reserved sym -> standard sym M -> named sym f None "=" ->
  well_made sym a -> well_made sym b ->
  (evaluate sym sb ar f [a; b] = VTrue -> eval M v a = eval M v b) /\
  (evaluate sym sb ar f [a; b] = VFalse -> eval M v a <> eval M v b) /\
  (forall t, evaluate sym sb ar f [a; b] <> VTerm t).
Proof.
  intros sym sb ar f a b M v I R St N Wa Wb.
  assert (E : evaluate sym sb ar f [a; b] = equal_terms sym sb a b) by (name_of N; reflexivity).
  rewrite E. destruct (equal_sound sym sb I R M St v a b Wa Wb) as [H1 H2].
  split; [exact H1|split; [exact H2|]]. clear. revert b.
  induction a as [i|c|fs IH] using term_ind'; intros b t H; cbn [equal_terms] in H.
  - destruct (equal_term sb (TVar i) b); discriminate H.
  - destruct (equal_term sb (TCst c) b); try discriminate H.
    destruct b as [j|c'|gs]; try discriminate H;
      repeat match type of H with (if ?b then _ else _) = _ => destruct b end; discriminate H.
  - destruct (equal_term sb (TRec fs) b); try discriminate H.
    destruct b as [j|c'|gs]; try discriminate H;
    do 4 (match type of H with (if ?b then _ else _) = _ => destruct b end; [discriminate H|]);
    (match type of H with (if ?b then _ else _) = _ => destruct b end;
      [|repeat match type of H with (if ?b then _ else _) = _ => destruct b end; discriminate H]).
    + destruct fs as [|? [|? [|? [|? ?]]]]; discriminate H.
    + destruct fs as [|h [|x [|y [|? ?]]]]; try discriminate H.
      destruct gs as [|h' [|x' [|y' [|? ?]]]]; try discriminate H.
      pose proof (Forall_inv (Forall_inv_tail IH)) as IHx.
      pose proof (Forall_inv (Forall_inv_tail (Forall_inv_tail IH))) as IHy.
      destruct (equal_terms sym sb x x') eqn:K; try discriminate H; [exact (IHy _ _ H)|exact (IHx _ _ K)].
Qed.

(** On numbers, distinct symbols and lists of these it always decides.  Partial: as long as no
    stray header read does harm ([sb]). *)
Theorem C57_equality_decides_partial : forall sym sb ar f a b da db,
  interned sym -> (forall c, sb c = true) -> named sym f None "=" ->
  well_made sym a -> well_made sym b -> writes sym a da -> writes sym b db ->
  (da = db -> evaluate sym sb ar f [a; b] = VTrue) /\
  (da <> db -> evaluate sym sb ar f [a; b] = VFalse).
Proof.
  intros sym sb ar f a b da db I Hsb N Wa Wb Ha Hb.
  assert (E : evaluate sym sb ar f [a; b] = equal_terms sym sb a b) by (name_of N; reflexivity).
  rewrite E. exact (equal_decides sym sb I Hsb a da Ha b db Wa Wb Hb).
Qed.

(** $first and $rest of a list are its first element and its rest; of anything else, and with
    another number of arguments, they are left. *)
Theorem C57_first_rest : forall sym sb f g args,
  reserved sym -> named sym f None "$first" -> named sym g None "$rest" -> Forall (well_made sym) args ->
  (forall t x y, args = [t] -> list_term sym t x y ->
     evaluate sym sb true f args = VTerm x /\ evaluate sym sb true g args = VTerm y) /\
  ((forall t x y, args = [t] -> ~ list_term sym t x y) ->
     evaluate sym sb true f args = VLeft /\ evaluate sym sb true g args = VLeft).
Proof.
  intros sym sb f g args R Nf Ng W.
  assert (Ef : evaluate sym sb true f args = fun_list sym args 1) by (name_of Nf; reflexivity).
  assert (Eg : evaluate sym sb true g args = fun_list sym args 0) by (name_of Ng; reflexivity).
  rewrite Ef, Eg. split.
  - intros t x y -> (h & -> & (o & -> & Eo)). cbn [fun_list]. unfold is_list_sym, uri_of. rewrite Eo. auto.
  - intros H. destruct args as [|[| |[|h [|x [|y [|? ?]]]]] [|? ?]]; auto. cbn [fun_list].
    destruct (is_list_sym sym h) eqn:L; auto. exfalso.
    destruct (list_rec sym R (TRec [h; x; y]) (Forall_inv W) L) as (h' & x' & y' & E & N & _).
    apply (H _ x y eq_refl). exists h. split; [reflexivity|]. injection E as -> _ _. exact N.
Qed.

(** The length of a distinct symbol, and whether one is part of another *)
Theorem C57_strings : forall sym sb f g a b sa sb',
  named sym f None "$strlen" -> named sym g None "$substr" ->
  distinct_symbol sym a sa -> distinct_symbol sym b sb' ->
  evaluate sym sb true f [a] = VInt (Z.of_nat (String.length sa)) /\
  (occurs sa sb' -> evaluate sym sb true g [a; b] = VTrue) /\
  (~ occurs sa sb' -> evaluate sym sb true g [a; b] = VFalse).
Proof.
  intros sym sb f g a b sa sb' Nf Ng (oa & -> & Ea) (ob & -> & Eb).
  split.
  - name_of Nf. unfold fun_arith1, is_unique. cbn [type_of ctype_of uri_of]. rewrite Ea. reflexivity.
  - assert (E : evaluate sym sb true g [TCst (CLong oa); TCst (CLong ob)] = if strstr sa sb' then VTrue else VFalse).
    { name_of Ng. unfold fun_str. cbn [uri_of]. rewrite Ea, Eb. reflexivity. }
    rewrite E. split; intros H.
    + apply strstr_iff in H. rewrite H. reflexivity.
    + destruct (strstr sa sb') eqn:K; [|reflexivity]. exfalso. apply H, strstr_iff, K.
Qed.

(** $substrat: the answer false is right for a non-empty A; nothing is answered only where A is
    not in B at C; for a single character the answer is always right.  Partial: see
    C57_substrat_refuted. *)
Theorem C57_substrat_partial : forall sym sb f a b c sa sb' n,
  named sym f None "$substrat" ->
  distinct_symbol sym a sa -> distinct_symbol sym b sb' -> writes sym c (DInt n) ->
  (evaluate sym sb true f [a; b; c] = VFalse -> sa <> "" -> ~ occurs_at sa sb' (Z.to_nat n)) /\
  (evaluate sym sb true f [a; b; c] = VLeft -> 0 <= n -> ~ occurs_at sa sb' (Z.to_nat n)) /\
  (evaluate sym sb true f [a; b; c] = VTrue -> String.length sa = 1%nat -> occurs_at sa sb' (Z.to_nat n)) /\
  (evaluate sym sb true f [a; b; c] = VTrue \/ evaluate sym sb true f [a; b; c] = VFalse \/
   evaluate sym sb true f [a; b; c] = VLeft).
Proof.
  intros sym sb f a b c sa sb' n Nf (oa & -> & Ea) (ob & -> & Eb) Wc.
  assert (T : type_of sym c = YInt /\ int_of c = n).
  { inversion Wc as [c' d H _|]; subst. destruct c' as [w|z|x|bs|o]; cbn [cval] in H.
    - destruct (w mod 8 =? 3) eqn:K; [|destruct (w mod 256 =? 95); discriminate H].
      injection H as <-. cbn [type_of ctype_of int_of]. unfold imm_type. rewrite small_iff, K. split; [reflexivity|apply decode_small].
    - injection H as <-. split; reflexivity.
    - discriminate H.
    - discriminate H.
    - destruct (sym o) as [[p|] s|]; [destruct (String.eqb p "#")|destruct (String.eqb s "$nil")|]; discriminate H. }
  destruct T as [T Hn].
  assert (E : evaluate sym sb true f [TCst (CLong oa); TCst (CLong ob); c] =
    if n <? 0 then VLeft else if slen sb' <? n then VLeft else if slen sb' <? slen sa + n then VLeft
    else if Ascii.eqb (byte_at sb' n) (byte_at sa 0) then VTrue else VFalse).
  { name_of Nf. unfold fun_str. cbn [uri_of]. rewrite Ea, Eb, T, Hn. reflexivity. }
  rewrite E. clear E.
  assert (B : forall u w, sb' = u ++ sa ++ w -> String.length u = Z.to_nat n -> 0 <= n ->
    slen sa + n <= slen sb' /\ (sa <> "" -> byte_at sb' n = byte_at sa 0)).
  { intros u w -> L P. unfold slen. rewrite !length_app_s. split; [lia|]. intros Ns.
    unfold byte_at. rewrite <- L, get_app. destruct sa as [|x sa]; [congruence|]. reflexivity. }
  split; [|split; [|split]].
  - intros H Ns (u & w & E & L).
    destruct (Z.ltb_spec n 0) as [K|K]; [discriminate H|].
    destruct (B u w E L K) as [B1 B2].
    destruct (slen sb' <? n); [discriminate H|]. destruct (slen sb' <? slen sa + n); [discriminate H|].
    rewrite (B2 Ns), Ascii.eqb_refl in H. discriminate H.
  - intros H P (u & w & E & L). destruct (B u w E L P) as [B1 _].
    unfold slen in *.
    destruct (Z.ltb_spec n 0); [lia|]. destruct (Z.ltb_spec (Z.of_nat (String.length sb')) n); [lia|].
    destruct (Z.ltb_spec (Z.of_nat (String.length sb')) (Z.of_nat (String.length sa) + n)); [lia|].
    destruct (Ascii.eqb _ _); discriminate H.
  - intros H L1. destruct (Z.ltb_spec n 0) as [K|K]; [discriminate H|].
    destruct (slen sb' <? n); [discriminate H|]. destruct (Z.ltb_spec (slen sb') (slen sa + n)); [discriminate H|].
    destruct (Ascii.eqb_spec (byte_at sb' n) (byte_at sa 0)) as [Q|Q]; [|discriminate H].
    destruct sa as [|x [|? ?]]; try discriminate L1. unfold slen in *. cbn [String.length] in *.
    change (byte_at (String x "") 0) with x in Q. unfold byte_at in Q.
    destruct (String.get (Z.to_nat n) sb') as [y|] eqn:G.
    + subst y. destruct (get_split _ _ _ G) as (u & w & -> & L). exists u, w. auto.
    + exfalso. assert (GN : forall s m, (m < String.length s)%nat -> String.get m s <> None).
      { induction s as [|z s IH]; intros [|m] Hm; cbn in *; try lia; [discriminate|apply IH; lia]. }
      apply (GN sb' (Z.to_nat n)); [lia|exact G].
  - repeat match goal with |- context[if ?b then _ else _] => destruct b end; auto.
Qed.

(** The tests of numbers are right for numbers and distinct symbols and are left for all other
    terms. *)
Theorem C57_number_tests : forall sym sb f g h a,
  named sym f None "$is_int" -> named sym g None "$is_real" -> named sym h None "$is_number" ->
  (forall z, writes sym a (DInt z) ->
     evaluate sym sb true f [a] = VTrue /\ evaluate sym sb true g [a] = VFalse /\ evaluate sym sb true h [a] = VTrue) /\
  (forall d, writes sym a (DReal d) ->
     evaluate sym sb true f [a] = VFalse /\ evaluate sym sb true g [a] = VTrue /\ evaluate sym sb true h [a] = VTrue) /\
  (forall s, writes sym a (DStr s) ->
     evaluate sym sb true f [a] = VFalse /\ evaluate sym sb true g [a] = VFalse /\ evaluate sym sb true h [a] = VFalse) /\
  ((forall z, ~ writes sym a (DInt z)) -> (forall d, ~ writes sym a (DReal d)) -> (forall s, ~ writes sym a (DStr s)) ->
     evaluate sym sb true f [a] = VLeft /\ evaluate sym sb true g [a] = VLeft /\ evaluate sym sb true h [a] = VLeft).
Proof.
  intros sym sb f g h a Nf Ng Nh.
  assert (Ef : evaluate sym sb true f [a] = fun_arith1 sym OIsInt [a]) by (name_of Nf; reflexivity).
  assert (Eg : evaluate sym sb true g [a] = fun_arith1 sym OIsReal [a]) by (name_of Ng; reflexivity).
  assert (Eh : evaluate sym sb true h [a] = fun_arith1 sym OIsNumber [a]) by (name_of Nh; reflexivity).
  rewrite Ef, Eg, Eh. clear Ef Eg Eh Nf Ng Nh.
  assert (NU : forall s, named sym a (Some "#") s -> writes sym a (DStr s)).
  { intros s (o & -> & E). constructor; [cbn; rewrite E; reflexivity|discriminate]. }
  split; [|split; [|split]].
  - intros z H. inversion H as [c d V _|]; subst. unfold fun_arith1. cbn [type_of].
    assert (Y : ctype_of sym c = YInt).
    { destruct c as [w|z'|x|bs|o]; cbn [cval ctype_of] in *; try discriminate V; auto.
      - unfold imm_type. rewrite small_iff. destruct (w mod 8 =? 3); [reflexivity|]. destruct (w mod 256 =? 95); discriminate V.
      - destruct (sym o) as [[p|] s|]; [destruct (String.eqb p "#")|destruct (String.eqb s "$nil")|]; discriminate V. }
    rewrite Y. auto.
  - intros z H. inversion H as [c d V _|]; subst. unfold fun_arith1. cbn [type_of].
    assert (Y : ctype_of sym c = YDouble).
    { destruct c as [w|z'|x|bs|o]; cbn [cval ctype_of] in *; try discriminate V; auto.
      - destruct (w mod 8 =? 3); [discriminate V|]. destruct (w mod 256 =? 95); discriminate V.
      - destruct (sym o) as [[p|] s|]; [destruct (String.eqb p "#")|destruct (String.eqb s "$nil")|]; discriminate V. }
    rewrite Y. auto.
  - intros s H. inversion H as [c d V _|]; subst. unfold fun_arith1. cbn [type_of].
    destruct c as [w|z'|x|bs|o]; cbn [cval ctype_of] in *; try discriminate V.
    + destruct (w mod 8 =? 3); [discriminate V|]. destruct (w mod 256 =? 95); discriminate V.
    + unfold is_unique. cbn [uri_of]. destruct (sym o) as [[p|] n|].
      * destruct (String.eqb p "#"); [auto|discriminate V].
      * destruct (String.eqb n "$nil"); discriminate V.
      * discriminate V.
  - intros H1 H2 H3. unfold fun_arith1. destruct a as [i|c|fs]; cbn [type_of]; auto.
    destruct c as [w|z'|x|bs|o]; cbn [ctype_of]; auto.
    + unfold imm_type. destruct (issmallint w) eqn:K; [|destruct (Z.land w 255 =? 95); auto].
      exfalso. apply (H1 (w / 8)). constructor; [cbn [cval]|discriminate]. rewrite small_iff in K. rewrite K. reflexivity.
    + exfalso. apply (H1 z'). constructor; [reflexivity|discriminate].
    + exfalso. apply (H2 x). constructor; [reflexivity|discriminate].
    + unfold is_unique. cbn [uri_of]. destruct (sym o) as [[p|] n|] eqn:E; auto.
      destruct (String.eqb p "#") eqn:P; auto. exfalso. apply (H3 n), NU. exists o. apply String.eqb_eq in P. subst p. auto.
Qed.

(** Only the built-in functions are evaluated, and without arithmetic only equality. *)
Theorem C57_only_builtin : forall sym sb ar f args, evaluate sym sb ar f args <> VLeft ->
  exists p n, named sym f p n /\
  (n = "=" /\ p = None \/
   ar = true /\ In n ["$is_int"; "$is_real"; "$is_number"; "$is_list"; "$is_map"; "$is_atom"; "$is_distinct"; "$is_substr";
     "$sum"; "$product"; "$difference"; "$quotient"; "$less"; "$lesseq"; "$greatereq"; "$greater"; "$to_int"; "$to_real";
     "$floor"; "$ceiling"; "$truncate"; "$round"; "$uminus"; "$first"; "$rest"; "$strlen"; "$substr"; "$substrat";
     "$quotient_e"; "$quotient_t"; "$quotient_f"; "$remainder"; "$remainder_e"; "$remainder_t"; "$remainder_f";
     "+"; "-"; "*"; "/"]).
Proof.
  intros sym sb ar f args H. unfold evaluate, computable, uri_of in H.
  destruct f as [|[| | | |o]|]; try (exfalso; apply H; reflexivity).
  destruct (sym o) as [p n|] eqn:E; [|exfalso; apply H; reflexivity].
  exists p, n. split; [exists o; auto|].
  assert (LK : forall s l, look s l <> None -> In s (map fst l)).
  { intros s l. induction l as [|[n0 o0] l IH]; cbn; [congruence|]. destruct (String.eqb s n0) eqn:Q; [|auto].
    apply String.eqb_eq in Q. auto. }
  destruct n as [|c r]; [exfalso; apply H; reflexivity|].
  destruct (Ascii.eqb c "$").
  - destruct r as [|c1 r]; [exfalso; apply H; reflexivity|].
    destruct (Ascii.eqb c1 "a"); [exfalso; apply H; reflexivity|].
    destruct ar; [|exfalso; apply H; reflexivity]. cbn [negb] in H.
    right. split; [reflexivity|].
    destruct (Ascii.eqb c1 "i").
    + assert (L : look (String c (String c1 r)) is_ops <> None) by (intros L; rewrite L in H; apply H; reflexivity).
      apply LK in L. unfold is_ops in L. cbn [map fst] in L. clear - L.
      repeat (destruct L as [L|L]; [rewrite <- L; clear; cbn; tauto|]). destruct L.
    + assert (L : look (String c (String c1 r)) dollar_ops <> None) by (intros L; rewrite L in H; apply H; reflexivity).
      apply LK in L. unfold dollar_ops in L. cbn [map fst] in L. clear - L.
      repeat (destruct L as [L|L]; [rewrite <- L; clear; cbn; tauto|]). destruct L.
  - destruct (String.eqb r "") eqn:Q; [|exfalso; apply H; reflexivity]. cbn [negb] in H. apply String.eqb_eq in Q. subst r.
    destruct p; [exfalso; apply H; reflexivity|].
    destruct (Ascii.eqb_spec c "=") as [->|N]; [left; auto|].
    destruct ar; [|exfalso; apply H; reflexivity]. right. split; [reflexivity|].
    destruct (Ascii.eqb_spec c "+") as [->|N1]; [cbn; tauto|].
    destruct (Ascii.eqb_spec c "-") as [->|N2]; [cbn; tauto|].
    destruct (Ascii.eqb_spec c "*") as [->|N3]; [cbn; tauto|].
    destruct (Ascii.eqb_spec c "/") as [->|N4]; [cbn; tauto|].
    exfalso. apply H. reflexivity.
Qed.

(** Documented: $is_list is true of lists and false of numbers and distinct symbols.  In the
    code a non-empty list gives its first element, and nothing else is answered. *)
Theorem C57_is_list_refuted : forall sym sb f, named sym f None "$is_list" ->
  (forall t x y, list_term sym t x y -> evaluate sym sb true f [t] = VTerm x) /\
  (forall c, evaluate sym sb true f [TCst c] = VLeft).
Proof.
  intros sym sb f N. assert (E : forall args, evaluate sym sb true f args = fun_list sym args 1) by (intros; name_of N; reflexivity).
  split; intros; rewrite E; [|reflexivity].
  destruct H as (h & -> & (o & -> & Eo)). cbn [fun_list]. unfold is_list_sym, uri_of. rewrite Eo. reflexivity.
Qed.

(** The same of $is_distinct: documented to be true of distinct symbols and false of lists *)
Theorem C57_is_distinct_refuted : forall sym sb f, named sym f None "$is_distinct" ->
  (forall t x y, list_term sym t x y -> evaluate sym sb true f [t] = VTerm x) /\
  (forall c, evaluate sym sb true f [TCst c] = VLeft).
Proof.
  intros sym sb f N. assert (E : forall args, evaluate sym sb true f args = fun_list sym args 1) by (intros; name_of N; reflexivity).
  split; intros; rewrite E; [|reflexivity].
  destruct H as (h & -> & (o & -> & Eo)). cbn [fun_list]. unfold is_list_sym, uri_of. rewrite Eo. reflexivity.
Qed.

(** A symbol table for examples *)
Definition table : list longv :=
  [LUri None "="; LUri None "$list"; LUri None "$nil"; LUri (Some "#") "abc"; LUri (Some "#") "b";
   LUri None "a"; LUri None "bat"; LUri None "$substr"; LUri None "$substrat"; LUri (Some "#") "ab";
   LUri (Some "#") "ac"; LUri None "$is_list"; LUri None "$is_distinct"; LUri None "$first"; LUri None "$rest";
   LUri None "$strlen"; LUri (Some "#") ""; LUri None "$is_int"; LUri (Some "#") "$nil"].
Definition tsym (o : Z) : longv := if o <? 0 then LOther else nth (Z.to_nat o) table LOther.
Definition k (o : Z) : term := TCst (CLong o).
Definition int1 : term := TCst (CImm 11).
Definition int2 : term := TCst (CImm 19).
Definition nil_t := k 2.
Definition cons_t (x y : term) : term := TRec [k 1; x; y].
Definition benign : stray_env := fun _ => true.

Lemma tsym_interned : interned tsym.
Proof.
  intros o o' p n H H'. unfold tsym in *.
  destruct (Z.ltb_spec o 0) as [K|K]; [discriminate H|]. destruct (Z.ltb_spec o' 0) as [K'|K']; [discriminate H'|].
  assert (D : NoDup table).
  { unfold table. repeat (constructor; [cbn; intuition discriminate|]). constructor. }
  assert (B : forall q, nth q table LOther = LUri p n -> (q < List.length table)%nat).
  { intros q Hq. destruct (Nat.lt_ge_cases q (List.length table)); auto. rewrite nth_overflow in Hq by assumption. discriminate. }
  rewrite NoDup_nth in D. specialize (D (Z.to_nat o) (Z.to_nat o') (B _ H) (B _ H')). rewrite H, H' in D.
  specialize (D eq_refl). lia.
Qed.
Lemma tsym_reserved : reserved tsym.
Proof.
  intros o p n H K. unfold tsym in H. destruct (o <? 0); [discriminate H|].
  assert (B : In (nth (Z.to_nat o) table LOther) (LOther :: table)) by (destruct (nth_in_or_default (Z.to_nat o) table LOther) as [B|B]; [right; exact B|left; symmetry; exact B]).
  rewrite H in B. unfold table in B. cbn [In] in B.
  repeat (destruct B as [B|B]; [try discriminate B; injection B as <- <-; auto; fail|]). destruct B.
Qed.

(** $substrat answers true of "ab" in "ac" at 0, where it is not, and false of the empty symbol
    in "b" at 0, where it is. *)
Theorem C57_substrat_refuted : exists sym f a b e c, 
  named sym f None "$substrat" /\ distinct_symbol sym a "ab" /\ distinct_symbol sym b "ac" /\ distinct_symbol sym e "" /\
  writes sym c (DInt 0) /\
  forall sb, evaluate sym sb true f [a; b; c] = VTrue /\ ~ occurs_at "ab" "ac" 0 /\
             evaluate sym sb true f [e; b; c] = VFalse /\ occurs_at "" "ac" 0.
Proof.
  exists tsym, (k 8), (k 9), (k 10), (k 16), (TCst (CImm 3)).
  split; [exists 8; auto|]. split; [exists 9; auto|]. split; [exists 10; auto|]. split; [exists 16; auto|].
  split; [constructor; [reflexivity|discriminate]|].
  intros sb. split; [reflexivity|]. split; [|split; [reflexivity|exists "", "ac"; auto]].
  intros (u & w & E & L). destruct u; [|discriminate L]. discriminate E.
Qed.

(** With two arguments $substrat reads past the end of the term. *)
Theorem C57_substrat_read_refuted : forall sym sb f a b sa sb',
  named sym f None "$substrat" -> distinct_symbol sym a sa -> distinct_symbol sym b sb' ->
  evaluate sym sb true f [a; b] = VStray.
Proof.
  intros sym sb f a b sa sb' Nf (oa & -> & Ea) (ob & -> & Eb). name_of Nf. unfold fun_str. cbn [uri_of]. rewrite Ea, Eb. reflexivity.
Qed.

(** $substr also decides ordinary constants by their names, although equal constants may have
    different names: there is no interpretation in which all these answers are right once
    a = b. *)
Theorem C57_substr_constants_refuted : exists sym f a a' b, interned sym /\
  named sym f None "$substr" /\ named sym a None "a" /\ named sym a' None "bat" /\ distinct_symbol sym b "abc" /\
  (forall sb, evaluate sym sb true f [a; b] = VTrue /\ evaluate sym sb true f [a'; b] = VFalse) /\
  forall eqc (M : interp) v, eval M v a = eval M v a' -> TCst eqc <> f ->
  ~ (holds eqc M v (TRec [f; a; b]) /\ ~ holds eqc M v (TRec [f; a'; b])).
Proof.
  exists tsym, (k 7), (k 5), (k 6), (k 3). split; [exact tsym_interned|].
  split; [exists 7; auto|]. split; [exists 5; auto|]. split; [exists 6; auto|]. split; [exists 3; auto|].
  split; [intros sb; split; reflexivity|].
  intros eqc M v E N [H H']. apply H'. revert H. unfold k in *. cbn [holds map] in *.
  destruct (cst_eq_dec (CLong 7) eqc) as [Q|Q]; [congruence|]. rewrite E. auto.
Qed.

(** Comparing lists can read a header that is none: a list whose element is a list against a
    list whose element is a constant. *)
Theorem C57_nested_list_refuted : exists sym f a b da db, interned sym /\ reserved sym /\
  named sym f None "=" /\ well_made sym a /\ well_made sym b /\ writes sym a da /\ writes sym b db /\
  forall sb ar, sb (CLong 3) = false -> evaluate sym sb ar f [a; b] = VStray.
Proof.
  exists tsym, (k 0), (cons_t (cons_t int1 nil_t) nil_t), (cons_t (k 3) nil_t), (DCons (DCons (DInt 1) DNil) DNil), (DCons (DStr "abc") DNil).
  split; [exact tsym_interned|]. split; [exact tsym_reserved|]. split; [exists 0; auto|].
  assert (NL : forall s, ~ named tsym (k 1) (Some "#") s) by (intros s (o & E & E'); injection E as <-; discriminate E').
  split; [cbn; intuition; try apply NL; lia|]. split; [cbn; intuition; try apply NL|].
  assert (L : named tsym (k 1) None "$list") by (exists 1; auto).
  assert (Wn : writes tsym nil_t DNil) by (constructor; [reflexivity|discriminate]).
  split. { apply w_list; auto. apply w_list; auto. constructor; [reflexivity|discriminate]. }
  split. { apply w_list; auto. constructor; [reflexivity|discriminate]. }
  intros sb ar H. cbn. rewrite H. reflexivity.
Qed.

(** An integer is never equal to a real number, not even 1 to 1.0, which is neither less nor
    greater: the order on numbers is not total. *)
Theorem C57_integer_real_refuted : forall sym sb ar f a b z d,
  interned sym -> (forall c, sb c = true) -> named sym f None "=" ->
  well_made sym a -> well_made sym b -> writes sym a (DInt z) -> writes sym b (DReal d) ->
  evaluate sym sb ar f [a; b] = VFalse /\
  ArithModel.compare ArithModel.OLess false (ArithModel.NInt 1) (ArithModel.NDbl (S754_finite false 4503599627370496 (-52))) = ArithModel.RFalse /\
  ArithModel.compare ArithModel.OGreater false (ArithModel.NInt 1) (ArithModel.NDbl (S754_finite false 4503599627370496 (-52))) = ArithModel.RFalse.
Proof.
  intros sym sb ar f a b z d I Hsb N Wa Wb Ha Hb. split; [|split; vm_compute; reflexivity].
  apply (C57_equality_decides_partial sym sb ar f a b _ _ I Hsb N Wa Wb Ha Hb). discriminate.
Qed.

(** ** Examples *)
(** An interpretation as in the documentation: terms themselves *)
Definition herbrand : interp :=
  {| dom := term; icst := TCst; ifun := fun h ts => TRec (TCst h :: ts); ipred := fun _ _ => False;
     iprop := fun _ => False; iodd := TRec |}.
Lemma herbrand_standard sym : standard sym herbrand.
Proof.
  constructor; cbn.
  - intros c c' d d' H H' N E. injection E as ->. congruence.
  - intros h x y x' y' _ E. injection E as -> ->. auto.
  - discriminate.
Qed.

Lemma ok_head : forall s, ~ named tsym (k 1) (Some "#") s.
Proof. intros s (o & E & E'); injection E as <-; discriminate E'. Qed.

Lemma wm_cons x y : well_made tsym x -> well_made tsym y -> well_made tsym (cons_t x y).
Proof.
  intros Hx Hy. split; [exact ok_head|]. split; [exact Logic.I|]. split; [exact Hx|]. split; [exact Hy|exact Logic.I].
Qed.

(** [1,X] and [2,Y] are different whatever X and Y are; [1,X] and [1,X] are equal *)
Example C57_ex_equality : forall v,
  evaluate tsym benign true (k 0) [cons_t int1 (TVar 1); cons_t int2 (TVar 2)] = VFalse /\
  eval herbrand v (cons_t int1 (TVar 1)) <> eval herbrand v (cons_t int2 (TVar 2)) /\
  evaluate tsym benign true (k 0) [cons_t int1 (TVar 1); cons_t int1 (TVar 1)] = VTrue /\
  evaluate tsym benign true (k 0) [cons_t (k 5) (TVar 1); cons_t (k 6) (TVar 1)] = VLeft.
Proof.
  intros v. split; [reflexivity|]. split; [|split; reflexivity].
  apply (C57_equality tsym benign true (k 0)); [exact tsym_interned|exact tsym_reserved|apply herbrand_standard|exists 0; auto| | |reflexivity].
  - apply wm_cons; [cbn; lia|exact Logic.I].
  - apply wm_cons; [cbn; lia|exact Logic.I].
Qed.
Example C57_ex_decides :
  evaluate tsym benign false (k 0) [cons_t (k 3) nil_t; cons_t (k 4) nil_t] = VFalse /\
  evaluate tsym benign false (k 0) [nil_t; k 18] = VFalse /\
  writes tsym (cons_t (k 3) nil_t) (DCons (DStr "abc") DNil).
Proof.
  split; [reflexivity|]. split; [reflexivity|]. apply w_list; [exists 1; auto| |]; constructor; try reflexivity; discriminate.
Qed.
Example C57_ex_first : evaluate tsym benign true (k 13) [cons_t int1 nil_t] = VTerm int1 /\
  evaluate tsym benign true (k 14) [cons_t int1 nil_t] = VTerm nil_t /\ evaluate tsym benign true (k 13) [k 5] = VLeft.
Proof. repeat split. Qed.
Example C57_ex_strings : evaluate tsym benign true (k 15) [k 3] = VInt 3 /\
  evaluate tsym benign true (k 7) [k 4; k 3] = VTrue /\ evaluate tsym benign true (k 7) [k 10; k 3] = VFalse /\
  evaluate tsym benign true (k 8) [k 4; k 3; int1] = VTrue /\ occurs_at "b" "abc" 1.
Proof. repeat (split; [reflexivity|]). exists "a", "c". auto. Qed.
Example C57_ex_tests : evaluate tsym benign true (k 17) [int1] = VTrue /\ evaluate tsym benign true (k 17) [k 3] = VFalse /\
  evaluate tsym benign true (k 17) [k 5] = VLeft.
Proof. repeat split. Qed.

Print Assumptions C57_equality.
Print Assumptions C57_equality_decides_partial.
Print Assumptions C57_first_rest.
Print Assumptions C57_strings.
Print Assumptions C57_substrat_partial.
Print Assumptions C57_number_tests.
Print Assumptions C57_only_builtin.
Print Assumptions C57_is_list_refuted.
Print Assumptions C57_is_distinct_refuted.
Print Assumptions C57_substrat_refuted.
Print Assumptions C57_substrat_read_refuted.
Print Assumptions C57_substr_constants_refuted.
Print Assumptions C57_nested_list_refuted.
Print Assumptions C57_integer_real_refuted.
