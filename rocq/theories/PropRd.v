(** C54: clauses are stored as they are written. *)
From Coq Require Import String Ascii Bool Arith ZArith Lia List.
From Verif Require Import DateSpec DateModel DateProof RdModel RdSpec RdBase RdProof RdConv RdEnd.
Import ListNotations.
Open Scope string_scope.
Open Scope list_scope.
Open Scope nat_scope.

(** Whatever clauses the parser has in its pool, in whatever layout, as long as no bracketed list is
    shared between two places: they are all stored, in order, and each stored clause is the one
    written -- same literals, signs, symbols, argument order and nesting, lists element by element,
    and variables equal exactly where their names are. *)
Theorem C54_clauses_read_partial : forall caps quest strtod cs,
  Forall (fun c => proper_clause caps quest strtod c /\ few_variables caps quest c) cs ->
  exists n, forall h ps R L fuel, held_clauses h ps cs R L -> lists_unshared R L -> n <= fuel ->
  exists ss h', parse_clauses caps quest strtod fuel h ps = Ok (ss, h') /\ Forall2 (read_as caps quest strtod) cs ss.
Proof.
  intros caps quest strtod cs F. exists (batch_size cs). intros. eapply clauses_read; eauto.
Qed.
Print Assumptions C54_clauses_read_partial.

(** A clause with more than a thousand variables is refused, not read as another one. *)
Theorem C54_too_many_variables : forall caps quest strtod c,
  proper_clause caps quest strtod c -> many_variables caps quest c ->
  exists n, forall h ps R L fuel, held_clause h ps c R L -> lists_unshared R L -> n <= fuel ->
  parse_clause caps quest strtod fuel h ps = Fail.
Proof. intros caps quest strtod c P M. exists (csize c). intros. eapply clause_fails; eauto. Qed.
Print Assumptions C54_too_many_variables.

(** Constants written differently, as arguments, are stored differently: two that get the same value are the same
    name with the same mark, numerals of the same number, or the same date or time; for floating
    point, texts the C library reads as the same number. *)
Lemma digit_inj c d n : digit c n -> digit d n -> c = d.
Proof.
  intros [B E] [_ F]. rewrite <- (ascii_nat_embedding c), <- (ascii_nat_embedding d). congruence.
Qed.
Lemma two_inj a b c d n : two a b n -> two c d n -> a = c /\ b = d.
Proof.
  intros (x & y & X & Y & ->) (x' & y' & X' & Y' & E).
  assert (x = x' /\ y = y') as [<- <-] by (destruct X, Y, X', Y'; lia). split; eapply digit_inj; eauto.
Qed.
Lemma two_range a b n : two a b n -> (0 <= n <= 99)%Z.
Proof. intros (x & y & [X _] & [Y _] & ->). lia. Qed.
Theorem C54_constants_apart : forall caps quest strtod a b v w vd pos x vd1 vd2,
  constant strtod a v -> constant strtod b w -> ~ variable caps quest a -> ~ variable caps quest b ->
  parse_primitive caps quest strtod (PA a) vd (S pos) = Ok (x, vd1) ->
  parse_primitive caps quest strtod (PA b) vd (S pos) = Ok (x, vd2) ->
  (a_s1 a = a_s1 b /\ (a_ty a = TUri -> a_s2 a = a_s2 b)) \/
  (a_ty a = TInt /\ a_ty b = TInt /\ exists z, numeral (a_s1 a) z /\ numeral (a_s1 b) z) \/
  (a_ty a = TDbl /\ a_ty b = TDbl /\ strtod (a_s1 a) = strtod (a_s1 b)).
Proof.
  intros caps quest strtod a b v w vd pos x vd1 vd2 A B NA NB PA_ PB.
  assert (E : forall a v, constant strtod a v -> ~ variable caps quest a ->
      parse_primitive caps quest strtod (PA a) vd (S pos) = Ok (v, vd)).
  { intros. rewrite prim_pos. apply const_prim; auto. }
  rewrite (E _ _ A NA) in PA_. rewrite (E _ _ B NB) in PB. assert (VW : v = w) by congruence. clear E PA_ PB NA NB.
  destruct A as [s p N| |s o z N R|s o d N SD|a1 b1 c1 d1 e1 f1 g1 i1 o y1 y2 m n Y1 Y2 M D V|a1 b1 c1 d1 e1 f1 o h m n H M D V];
  destruct B as [s' p' N'| |s' o' z' N' R'|s' o' d' N' SD'|a2 b2 c2 d2 e2 f2 g2 i2 o' y1' y2' m' n' Y1' Y2' M' D' V'|a2 b2 c2 d2 e2 f2 o' h' m' n' H' M' D' V'];
    try discriminate VW; cbn [a_ty a_s1 a_s2].
  - left. split; congruence.
  - left. split; congruence.
  - left. split; congruence.
  - left. split; congruence.
  - right. left. assert (z = z') by congruence. subst. eauto 6.
  - right. right. repeat split; congruence.
  - left. assert (E : day_number (100 * y1' + y2') m' n' = day_number (100 * y1 + y2) m n) by congruence.
    apply (day_number_inj _ _ _ _ _ _ V' V) in E.
    pose proof (two_range _ _ _ Y1). pose proof (two_range _ _ _ Y2). pose proof (two_range _ _ _ Y1').
    pose proof (two_range _ _ _ Y2').
    assert (y1' = y1 /\ y2' = y2 /\ m' = m /\ n' = n) as (-> & -> & -> & ->).
    { assert (100 * y1' + y2' = 100 * y1 + y2 /\ m' = m /\ n' = n)%Z as (E1 & E2 & E3) by (repeat split; congruence). lia. }
    destruct (two_inj _ _ _ _ _ Y1 Y1') as [-> ->]. destruct (two_inj _ _ _ _ _ Y2 Y2') as [-> ->].
    destruct (two_inj _ _ _ _ _ M M') as [-> ->]. destruct (two_inj _ _ _ _ _ D D') as [-> ->]. split; easy.
  - left. assert (E : (((h * 60 + m) * 60 + n) * 100 = ((h' * 60 + m') * 60 + n') * 100)%Z) by congruence.
    destruct V as (V1 & V2 & V3 & _), V' as (V1' & V2' & V3' & _).
    assert (n' = n /\ m' = m /\ h' = h) as (-> & -> & ->) by lia.
    destruct (two_inj _ _ _ _ _ H H') as [-> ->]. destruct (two_inj _ _ _ _ _ M M') as [-> ->].
    destruct (two_inj _ _ _ _ _ D D') as [-> ->]. split; easy.
Qed.
Print Assumptions C54_constants_apart.

(** Goals, assumptions and imported axioms are told apart by the declared role and the mark on
    names from included files; nothing else changes a role. *)
Theorem C54_roles : forall name rolename,
  (read_role name rolename = RGoal <-> rolename = Some "conjecture" \/ rolename = Some "negated_conjecture") /\
  (read_role name rolename = RAssumption <-> rolename = Some "hypothesis" \/ rolename = Some "assumption") /\
  (read_role name rolename = RExt <-> rolename = Some "axiom" /\ exists n, name = Some ("$inc_" ++ n)%string).
Proof.
  intros name [r|]; unfold read_role; [|cbn; intuition; try easy; destruct H0; easy].
  assert (PX : match name with Some n => prefix imported_prefix n | None => false end = true <->
               exists n, name = Some ("$inc_" ++ n)%string).
  { destruct name as [n|]; [|split; [easy|intros (n & E); easy]]. split.
    - intros P. exists (substring 5 (String.length n - 5) n). f_equal. apply prefix_correct in P.
      change (String.length imported_prefix) with 5 in P.
      destruct n as [|c1 [|c2 [|c3 [|c4 [|c5 n]]]]]; try easy. cbn in P. destruct n.
      + cbn. exact P.
      + replace (String.length (String c1 (String c2 (String c3 (String c4 (String c5 (String a n)))))) - 5)
          with (String.length (String a n)) by (cbn; lia).
        inversion P; subst.
        assert (SUB : forall s, substring 0 (String.length s) s = s) by (induction s; cbn; congruence).
        change (substring 5 (String.length (String a n)) (String "$" (String "i" (String "n" (String "c" (String "_" (String a n)))))))
          with (substring 0 (String.length (String a n)) (String a n)). rewrite SUB. reflexivity.
    - intros (m & E). inversion E; subst. destruct m; reflexivity. }
  destruct (String.eqb_spec r "conjecture"); [subst; cbn; intuition congruence|].
  destruct (String.eqb_spec r "negated_conjecture"); [subst; cbn; intuition congruence|]. cbn [orb].
  destruct (String.eqb_spec r "hypothesis"); [subst; cbn; intuition congruence|].
  destruct (String.eqb_spec r "assumption"); [subst; cbn; intuition congruence|]. cbn [orb].
  destruct (String.eqb_spec r "axiom") as [E|E]; cbn [andb].
  - subst. destruct (match name with Some n => prefix imported_prefix n | None => false end);
      (split; [|split]); split; try easy; intuition congruence.
  - (split; [|split]); split; try easy; intuition congruence.
Qed.
Print Assumptions C54_roles.

(** * What is missing *)
Definition nm (s : string) : watom := mka TUri s None.
Definition no (s : string) : watom := mka TInt s None.
Definition lst : watom := nm "$$lst".

(** (p(a) & q(a)) | r([1,2,3]): the parser leaves r([1,2,3]) once; distribution puts it in both
    clauses, and reading the first one takes the list apart. *)
Definition pool : heap :=
  [(PA (nm "p"), PC 1); (PA (nm "a"), PN);
   (PA (nm "q"), PC 3); (PA (nm "a"), PN);
   (PA (nm "r"), PC 5); (PC 6, PN);
   (PA lst, PC 7); (PC 8, PN);
   (PA (no "1"), PC 9); (PA (no "2"), PC 10); (PA (no "3"), PN)].
Definition wp : watomic := WPred (nm "p") [WA (nm "a")].
Definition wq : watomic := WPred (nm "q") [WA (nm "a")].
Definition wr : watomic := WPred (nm "r") [WL [WA (no "1"); WA (no "2"); WA (no "3")]].
Lemma pool_p : held_lit pool (PC 0) (false, wp) [0; 1] [].
Proof.
  constructor. eapply held_pred with (ps := [PA (nm "a")]) (S := [1]) (R := []); [reflexivity| |].
  - econstructor; [reflexivity|constructor].
  - eapply all_cons with (R := []) (L := []) (R' := []) (L' := []); constructor.
Qed.
Lemma pool_q : held_lit pool (PC 2) (false, wq) [2; 3] [].
Proof.
  constructor. eapply held_pred with (ps := [PA (nm "a")]) (S := [3]) (R := []); [reflexivity| |].
  - econstructor; [reflexivity|constructor].
  - eapply all_cons with (R := []) (L := []) (R' := []) (L' := []); constructor.
Qed.
Lemma pool_r : exists R, held_lit pool (PC 4) (false, wr) R [8; 9; 10].
Proof.
  eexists. constructor. eapply held_pred with (ps := [PC 6]) (S := [5]); [reflexivity| |].
  - econstructor; [reflexivity|constructor].
  - eapply all_cons with (L := [8; 9; 10]) (L' := []); [|constructor].
    eapply held_list with (ps := [PA (no "1"); PA (no "2"); PA (no "3")]) (S := [8; 9; 10]) (L := []); try reflexivity.
    + repeat (econstructor; [reflexivity|]). constructor.
    + eapply all_cons with (L := []) (L' := []); [constructor|].
      eapply all_cons with (L := []) (L' := []); [constructor|].
      eapply all_cons with (L := []) (L' := []); constructor.
Qed.
Lemma dig c n : (0 <= n <= 9)%Z -> c = ascii_of_nat (Z.to_nat (48 + n)) -> digit c n.
Proof.
  intros B ->. split; auto. rewrite nat_ascii_embedding; auto. lia.
Qed.
Lemma not_var_name s : head_is upper s = false -> head_is (fun c => Ascii.eqb c "?") s = false ->
  forall caps quest, ~ variable caps quest (nm s).
Proof.
  intros U Q caps quest [V|(_ & _ & [(_ & a & r & E & C)|(_ & a & r & E & ->)])]; [easy| |]; cbn in E; subst s.
  - apply upper_iff in C. cbn in U. congruence.
  - cbn in Q. easy.
Qed.
Lemma no_not_var s : forall caps quest, ~ variable caps quest (no s).
Proof. intros caps quest [V|(V & _)]; cbn in V; easy. Qed.
Lemma small_int s z : numeral s z -> (z < 2 ^ 31)%Z -> forall c q t, proper c q t (WA (no s)).
Proof. intros. eapply pr_con; [apply no_not_var|]. constructor; eauto. Qed.

Theorem C54_shared_list_refuted : exists h a b c x y z R L,
  held_clauses h (distribute_literals a b c) [[x; z]; [y; z]] R L /\
  (forall caps quest strtod, Forall (fun c => proper_clause caps quest strtod c /\ few_variables caps quest c) [[x; z]; [y; z]]) /\
  forall caps quest strtod, exists ss h', parse_clauses caps quest strtod 100 h (distribute_literals a b c) = Ok (ss, h') /\
    ~ Forall2 (read_as caps quest strtod) [[x; z]; [y; z]] ss.
Proof.
  destruct pool_r as (RR & PR).
  exists pool, (PC 0), (PC 2), (PC 4), (false, wp), (false, wq), (false, wr). do 2 eexists.
  split; [|split].
  - eapply hs_cons; [|eapply hs_cons; [|constructor]].
    + eapply hc_cons; [apply pool_p|]. eapply hc_cons; [exact PR|constructor].
    + eapply hc_cons; [apply pool_q|]. eapply hc_cons; [exact PR|constructor].
  - intros caps quest strtod.
    assert (VA : vars caps quest (WA (nm "a")) []) by (constructor; apply not_var_name; reflexivity).
    assert (VN : forall s, vars caps quest (WA (no s)) []) by (intros; constructor; apply no_not_var).
    assert (PA_ : proper caps quest strtod (WA (nm "a"))).
    { eapply pr_con; [apply not_var_name; reflexivity|]. constructor. easy. }
    assert (V1 : forall p, vars_atomic caps quest (WPred p [WA (nm "a")]) ([] ++ [])).
    { intros. constructor. constructor; auto. constructor. }
    assert (V2 : vars_atomic caps quest wr ([] ++ [])).
    { constructor. constructor; [|constructor]. constructor.
      change (@nil string) with ([] ++ ([] ++ ([] ++ @nil string))).
      do 3 (constructor; [apply VN|]). constructor. }
    assert (VC : forall p, vars_clause caps quest [(false, WPred p [WA (nm "a")]); (false, wr)] ([] ++ ([] ++ []))).
    { intros. constructor; [apply V1|]. constructor; [apply V2|constructor]. }
    assert (P1 : forall p, p <> minus -> (exists s, p = nm s /\ s <> "") -> proper_atomic caps quest strtod (WPred p [WA (nm "a")])).
    { intros p PM (s & -> & NE). econstructor; [constructor; exact NE|exact PM|constructor; [exact PA_|constructor]]. }
    assert (P2 : proper_atomic caps quest strtod wr).
    { econstructor; [constructor; easy|easy|]. constructor; [|constructor]. constructor.
      constructor; [|constructor; [|constructor; [|constructor]]].
      - eapply small_int with (z := 1%Z); [|lia]. constructor. apply dig; [lia|reflexivity].
      - eapply small_int with (z := 2%Z); [|lia]. constructor. apply dig; [lia|reflexivity].
      - eapply small_int with (z := 3%Z); [|lia]. constructor. apply dig; [lia|reflexivity]. }
    assert (PC_ : forall s, s <> "" -> proper_clause caps quest strtod [(false, WPred (nm s) [WA (nm "a")]); (false, wr)]).
    { intros s NE. split; [easy|]. constructor; [apply P1; [easy|eauto]|]. constructor; [exact P2|constructor]. }
    constructor; [|constructor; [|constructor]]; (split; [apply PC_; easy|]); eexists; (split; [apply VC|cbn; lia]).
  - intros caps quest strtod. eexists. eexists. split.
    + destruct caps, quest; reflexivity.
    + intros F. inversion F as [|? ? ? ? _ F2]; subst. inversion F2 as [|? ? ? ? F3 _]; subst.
      destruct F3 as (xs & r & _ & _ & _ & F4). cbn in F4. inversion F4 as [|? ? ? ? _ F5]; subst.
      inversion F5 as [|? ? ? ? [_ S] _]; subst. cbn in S. inversion S as [|? ? ? ? _ F6]; subst.
      inversion F6 as [|? ? ? ? S1 _]; subst. inversion S1 as [| | | |? ? ? ? _ S2]; subst. inversion S2.
Qed.
Print Assumptions C54_shared_list_refuted.

(** An integer is cut to 32 bits: p(1) and ~p(4294967297) are stored with the same atom. *)
Theorem C54_integer_refuted : exists h ps c R L,
  c = [(false, WPred (nm "p") [WA (no "1")]); (true, WPred (nm "p") [WA (no "4294967297")])] /\
  held_clause h ps c R L /\ lists_unshared R L /\ numeral "4294967297" 4294967297 /\ numeral "1" 1 /\
  forall caps quest strtod, exists v h', parse_clause caps quest strtod 100 h ps = Ok (SRule [(false, v); (true, v)], h').
Proof.
  exists [(PA (nm "p"), PC 1); (PA (no "1"), PN); (PA minus, PC 3); (PC 4, PN); (PA (nm "p"), PC 5); (PA (no "4294967297"), PN)],
    [PC 0; PC 2]. do 3 eexists. split; [reflexivity|]. split; [|split; [|split; [|split]]].
  - eapply hc_cons with (R := [0; 1]) (L := []).
    + constructor. eapply held_pred with (S := [1]) (R := []); [reflexivity| |].
      * econstructor; [reflexivity|constructor].
      * eapply all_cons with (R := []) (L := []) (R' := []) (L' := []); constructor.
    + eapply hc_cons with (R := [2; 3; 4; 5]) (L := []); [|constructor].
      eapply held_neg; [reflexivity|reflexivity|]. eapply held_pred with (S := [5]) (R := []); [reflexivity| |].
      * econstructor; [reflexivity|constructor].
      * eapply all_cons with (R := []) (L := []) (R' := []) (L' := []); constructor.
  - split; [constructor|easy].
  - change 4294967297%Z with (4 * 10 ^ 9 + (2 * 10 ^ 8 + (9 * 10 ^ 7 + (4 * 10 ^ 6 + (9 * 10 ^ 5 + (6 * 10 ^ 4 + (7 * 10 ^ 3 + (2 * 10 ^ 2 + (9 * 10 ^ 1 + 7)))))))))%Z.
    Ltac more d := apply (num_more _ d); [apply dig; [lia|reflexivity]|].
    more 4%Z. more 2%Z. more 9%Z. more 4%Z. more 9%Z. more 6%Z. more 7%Z. more 2%Z. more 9%Z.
    constructor. apply dig; [lia|reflexivity].
  - constructor. apply dig; [lia|reflexivity].
  - intros caps quest strtod. exists (VRec [VUri "p" None; VInt 1]). eexists. destruct caps, quest; reflexivity.
Qed.
Print Assumptions C54_integer_refuted.

(** Dates and times that do not exist are read as other ones, or all as the same value. *)
Theorem C54_date_refuted : forall caps quest strtod vd pos,
  parse_primitive caps quest strtod (PA (mka TDate "2023-02-31" None)) vd pos =
  parse_primitive caps quest strtod (PA (mka TDate "2023-03-03" None)) vd pos /\
  parse_primitive caps quest strtod (PA (mka TDate "2023-13-01" None)) vd pos =
  parse_primitive caps quest strtod (PA (mka TDate "1999-00-07" None)) vd pos /\
  parse_primitive caps quest strtod (PA (mka TTime "10:60:00" None)) vd pos =
  parse_primitive caps quest strtod (PA (mka TTime "11:00:00" None)) vd pos.
Proof. intros. repeat split; reflexivity. Qed.
Print Assumptions C54_date_refuted.

(** A statement p(a) => q(a) of the plain syntax in an included file is not made into clauses; it
    becomes the fact imp(...), which says nothing about p and q. *)
Theorem C54_included_plain_refuted :
  clausified Plain false = true /\ clausified Plain true = false /\
  forall caps quest strtod,
    let h := [(PA (mka TAnon "imp" None), PC 1); (PA (nm "p"), PC 2); (PA (nm "q"), PN)] in
    parse_clause caps quest strtod 100 h [PC 0] =
    Ok (SFact (VRec [VUri "imp" None; VUri "p" None; VUri "q" None]), h).
Proof. repeat split; intros. destruct caps, quest; reflexivity. Qed.
Print Assumptions C54_included_plain_refuted.

(** * The hypotheses are met
    p(f(X),[X,2020-02-29],'a b') | ~q(X): the clause is read with its one variable numbered 0. *)
Definition ex_heap : heap :=
  [(PA (nm "p"), PC 1); (PC 4, PC 2); (PC 6, PC 3); (PA (mka TUri "a b" (Some "c")), PN);
   (PA (nm "f"), PC 5); (PA (nm "X"), PN);
   (PA lst, PC 7); (PC 8, PN); (PA (nm "X"), PC 9); (PA (mka TDate "2020-02-29" None), PN);
   (PA minus, PC 11); (PC 12, PN); (PA (nm "q"), PC 13); (PA (nm "X"), PN)].
Definition ex_clause : wclause :=
  [(false, WPred (nm "p") [WF (nm "f") [WA (nm "X")]; WL [WA (nm "X"); WA (mka TDate "2020-02-29" None)];
                           WA (mka TUri "a b" (Some "c"))]);
   (true, WPred (nm "q") [WA (nm "X")])].
Example ex_held : exists R, held_clause ex_heap [PC 0; PC 10] ex_clause R [8; 9] /\ lists_unshared R [8; 9].
Proof.
  exists ([0; 1; 2; 3; 4; 5; 6; 7] ++ [10; 11; 12; 13]). split.
  - eapply hc_cons with (L := [8; 9]) (L' := []) (R' := [10; 11; 12; 13]).
    + constructor. eapply held_pred with (S := [1; 2; 3]) (R := [4; 5; 6; 7]); [reflexivity| |].
      * repeat (econstructor; [reflexivity|]). constructor.
      * eapply all_cons with (R := [4; 5]) (L := []) (R' := [6; 7]).
        -- eapply held_app with (S := [5]) (R := []); [reflexivity|reflexivity| |].
           ++ econstructor; [reflexivity|constructor].
           ++ eapply all_cons with (R := []) (L := []) (R' := []) (L' := []); constructor.
        -- eapply all_cons with (R := [6; 7]) (L := [8; 9]) (R' := []) (L' := []).
           ++ eapply held_list with (S := [8; 9]) (R := []) (L := []); try reflexivity.
              ** repeat (econstructor; [reflexivity|]). constructor.
              ** eapply all_cons with (R := []) (L := []) (R' := []) (L' := []); [constructor|].
                 eapply all_cons with (R := []) (L := []) (R' := []) (L' := []); constructor.
           ++ eapply all_cons with (R := []) (L := []) (R' := []) (L' := []); constructor.
    + eapply hc_cons with (R := [10; 11; 12; 13]) (L := []) (R' := []) (L' := []); [|constructor].
      eapply held_neg; [reflexivity|reflexivity|]. eapply held_pred with (S := [13]) (R := []); [reflexivity| |].
      * econstructor; [reflexivity|constructor].
      * eapply all_cons with (R := []) (L := []) (R' := []) (L' := []); constructor.
  - split.
    + repeat constructor; cbn; intuition lia.
    + cbn. intuition lia.
Qed.
Lemma ex_X strtod : variable true false (nm "X") /\ proper true false strtod (WA (nm "X")).
Proof.
  assert (V : variable true false (nm "X")).
  { right. repeat split. left. split; [reflexivity|]. exists "X"%char, "". split; [reflexivity|]. cbn. tauto. }
  split; auto. apply pr_var; easy.
Qed.
Example ex_proper : forall strtod, proper_clause true false strtod ex_clause /\ few_variables true false ex_clause.
Proof.
  intros strtod. destruct (ex_X strtod) as [V P].
  assert (VX : vars true false (WA (nm "X")) ["X"]) by (apply (vs_var true false (nm "X")); auto).
  assert (NQ : ~ variable true false (mka TUri "a b" (Some "c"))) by (intros [Q|(_ & Q & _)]; easy).
  assert (ND : ~ variable true false (mka TDate "2020-02-29" None)) by (intros [Q|(Q & _)]; easy).
  split.
  - split; [easy|]. constructor; [|constructor; [|constructor]].
    + econstructor; [constructor; easy|easy|]. constructor; [|constructor; [|constructor; [|constructor]]].
      * econstructor; [apply fun_sym; [intros s A; inversion A|constructor; easy]|]. constructor; [exact P|constructor].
      * constructor. constructor; auto. constructor; [|constructor]. eapply pr_con; [exact ND|].
        Ltac tw x y := exists x, y; split; [apply dig; [lia|reflexivity]|split; [apply dig; [lia|reflexivity]|reflexivity]].
        eapply con_date with (y1 := 20%Z) (y2 := 20%Z) (m := 2%Z) (n := 29%Z).
        -- tw 2%Z 0%Z. -- tw 2%Z 0%Z. -- tw 0%Z 2%Z. -- tw 2%Z 9%Z.
        -- unfold valid_date. vm_compute. intuition congruence.
      * eapply pr_con; [exact NQ|]. constructor. easy.
    + econstructor; [constructor; easy|easy|]. constructor; auto.
  - exists ((["X"] ++ ((["X"] ++ ([] ++ [])) ++ ([] ++ []))) ++ ((["X"] ++ []) ++ [])). split.
    + constructor; [|constructor; [|constructor]].
      * constructor. constructor; [constructor; change ["X"] with (["X"] ++ []); constructor; auto; constructor|].
        constructor; [constructor; constructor; auto; constructor; [constructor; auto|constructor]|].
        constructor; [constructor; auto|constructor].
      * constructor. constructor; auto. constructor.
    + cbn. lia.
Qed.
Example ex_stored : forall strtod, exists h', parse_clause true false strtod 100 ex_heap [PC 0; PC 10] =
  Ok (SRule [(false, VRec [VUri "p" None; VRec [VUri "f" None; VVar 0];
                           VRec [VUri "$list" None; VVar 0; VRec [VUri "$list" None; VDate 737484; VUri "$nil" None]];
                           VUri "a b" (Some "c")]);
             (true, VRec [VUri "q" None; VVar 0])], h').
Proof. intros. eexists. reflexivity. Qed.
(** 1001 variables in one clause *)
Fixpoint xs (n : nat) : string := match n with O => "" | S n => String "x" (xs n) end.
Fixpoint names (n : nat) : list string :=
  match n with O => [] | S n => String "?" (xs n) :: names n end.
Definition wide : wclause := [(false, WPred (nm "p") (map (fun s => WA (mka TVar s None)) (names 1001)))].
Example ex_wide : forall strtod, proper_clause false true strtod wide /\ many_variables false true wide.
Proof.
  intros strtod.
  assert (V : forall s, variable false true (mka TVar s None)) by (intros; left; reflexivity).
  assert (G : forall n, Forall (proper false true strtod) (map (fun s => WA (mka TVar s None)) (names n)) /\
                        many false true (map (fun s => WA (mka TVar s None)) (names n)) (names n)).
  { induction n as [|n [A B]]; [split; constructor|]. cbn [names map]. split.
    - constructor; auto. apply pr_var; easy.
    - change (String "?" (xs n) :: names n) with
        ([String "?" (xs n)] ++ names n).
      constructor; auto. apply (vs_var false true (mka TVar _ None)); auto. }
  split.
  - split; [easy|]. constructor; [|constructor]. econstructor; [constructor; easy|easy|apply G].
  - exists (names 1001 ++ []). split; [constructor; [constructor; apply G|constructor]|].
    assert (LX : forall n, String.length (xs n) = n) by (induction n; cbn; congruence).
    assert (LN : forall n s, In s (names n) -> String.length s <= n).
    { induction n as [|n IH]; [easy|]. intros s [<-|I]; [cbn; rewrite LX; auto|]. apply IH in I. lia. }
    assert (ND : forall n, NoDup (names n)).
    { induction n as [|n IH]; constructor; auto. intros I. apply LN in I. cbn in I. rewrite LX in I. lia. }
    assert (LL : forall n, length (names n) = n) by (induction n; cbn; congruence).
    rewrite app_nil_r, nodup_fixed_point by apply ND. rewrite LL. lia.
Qed.
