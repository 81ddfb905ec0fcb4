(** C58: a clause is printed as a text that gives the clause. *)
From Coq Require Import String Ascii List ZArith Bool Lia.
From Verif Require Import Word64 PtModel PtSpec PtBase PtJson PtProof PtPlain.
Import ListNotations.
Open Scope string_scope.
Open Scope Z_scope.
Open Scope list_scope.

(** With JSON output a clause is printed, after what is in the buffer, as a JSON text of the value the documentation describes:
    a list of literals, each a list of the predicate, with its sign, and the arguments.  It is a JSON text of no other value.
    Missing: operators, names with a backslash or control characters, more than 90 quotes in a name, integers of more than 32
    bits and doubles of more than 40 places (refuted below), and texts of over half a gigabyte. *)
Theorem C58_json_partial : exists nm num : Z -> str,
  (forall i j, 0 <= i < 2 ^ 31 -> 0 <= j < 2 ^ 31 -> nm i = nm j -> i = j) /\
  (forall z, - 2 ^ 31 <= z < 2 ^ 31 -> number (num z) /\ int_value (num z) = z) /\
  forall fmt c, clean fmt c -> exists s,
    json_text (clause_json nm num fmt c) s /\
    (forall j, json_text j s -> j = clause_json nm num fmt c) /\
    (forall b, sound b -> pos b + slen s + 300 <= 500000000 ->
       exists b', print_clause fmt Json c b = Ok b' /\ txt b' = txt b ++ s /\ sound b').
Proof.
  exists (var_name Json), (fun z => dec (w32 z)). split; [exact var_inj|]. split.
  - intros z Hz. rewrite w32_small by exact Hz. destruct (dec_ok z Hz) as (A & B & _). auto.
  - intros fmt c C. exists (tx_clause fmt Json c).
    assert (J : json_text (clause_json (var_name Json) (fun z => dec (w32 z)) fmt c) (tx_clause fmt Json c)).
    { exists [], (tx_clause fmt Json c), []. split; [reflexivity|]. split; [apply clause_value; exact C|]. split; [reflexivity|].
      rewrite app_nil_r. reflexivity. }
    split; [exact J|]. split; [intros j Hj; exact (json_text_unique j _ _ Hj J)|].
    intros b S L. apply clause_exact; [apply clean_fits; exact C|exact S|exact L].
Qed.

(** Different clauses have different JSON texts, if names are not made to look like something else. *)
Theorem C58_json_distinct_partial : forall fmt, exists text : option clause -> str,
  (forall c b, clean fmt c -> sound b -> pos b + slen (text c) + 300 <= 500000000 ->
     exists b', print_clause fmt Json c b = Ok b' /\ txt b' = txt b ++ text c) /\
  (forall q D c c', told_apart fmt D -> clean fmt c -> clean fmt c' ->
     in_clause (readable q D) c -> in_clause (readable q D) c' ->
     text c = text c' -> option_map literals c = option_map literals c').
Proof.
  intros fmt. exists (tx_clause fmt Json). split.
  - intros c b C S L. destruct (clause_exact fmt Json c b) as (b' & P & T & _); auto. { apply clean_fits; exact C. } eauto.
  - intros q D c c' TA C C' R R' E. eapply (clause_inj fmt q D TA c c'); auto.
    eapply json_text_unique with (s := tx_clause fmt Json c).
    + exists [], (tx_clause fmt Json c), []. split; [reflexivity|]. split; [apply clause_value; exact C|]. split; [reflexivity|].
      rewrite app_nil_r. reflexivity.
    + rewrite E. exists [], (tx_clause fmt Json c'), []. split; [reflexivity|]. split; [apply clause_value; exact C'|]. split; [reflexivity|].
      rewrite app_nil_r. reflexivity.
Qed.

(** Different clauses have different plain texts: bare words, quoted names, numbers, variables and operators are told apart. *)
Theorem C58_plain_distinct_partial : forall fmt, exists text : option clause -> str,
  (forall q D c b, word_clause fmt q D c -> sound b -> pos b + slen (text c) + 300 <= 500000000 ->
     exists b', print_clause fmt Plain c b = Ok b' /\ txt b' = txt b ++ text c) /\
  (forall q D c c', told_apart fmt D -> word_clause fmt q D c -> word_clause fmt q D c' ->
     text c = text c' -> option_map literals c = option_map literals c').
Proof.
  intros fmt. exists (tx_clause fmt Plain). split.
  - intros q D c b C S L. destruct (clause_exact fmt Plain c b) as (b' & P & T & _); auto. { eapply word_fits; exact C. } eauto.
  - intros q D c c' TA C C' E. eapply (plain_inj fmt q D TA c c'); auto.
Qed.

(** Nothing is written outside the buffer, whatever the clause, the values in it, the numbers and the buffer, if no name has more
    than 90 quotes. *)
Theorem C58_no_overrun_partial : forall fmt m c b,
  in_clause (fun v => match v with VUri _ n => quotes DQ n <= 90 /\ quotes SQ n <= 90 | _ => True end) c ->
  print_clause fmt m c b <> Overrun.
Proof. intros fmt m c b H. apply clause_N. exact H. Qed.

(** * Texts that are not JSON *)

(** Outside strings only these bytes occur; a string has no control characters and is closed. *)
Definition outside : str := S_ "[]{},:0123456789+-.eEnultrfas" ++ [ch 32; ch 9; ch 10; ch 13].
Fixpoint scan (st : nat) (s : str) : bool :=
  match s with
  | [] => (st =? 0)%nat
  | a :: r =>
      match st with
      | O => if Ascii.eqb a DQ then scan 1 r else if existsb (Ascii.eqb a) outside then scan 0 r else false
      | 1%nat => if Ascii.eqb a DQ then scan 0 r else if Ascii.eqb a BS then scan 2 r
                 else if (nat_of_ascii a <? 32)%nat then false else scan 1 r
      | _ => scan 1 r
      end
  end.
Lemma scan_out s x : all (fun a => existsb (Ascii.eqb a) outside) s -> scan 0 (s ++ x) = scan 0 x.
Proof.
  induction s as [|a s IH]; [reflexivity|]. unfold all. cbn [forallb app]. intros H. apply andb_true_iff in H. destruct H as (A & H).
  cbn [scan]. rewrite A. destruct (Ascii.eqb a DQ) eqn:E; [apply Ascii.eqb_eq in E; subst a; discriminate A|]. apply IH. exact H.
Qed.
Lemma sub_out (p : ascii -> bool) (l : str) : (forall a, p a = true -> In a l) -> Forall (fun a => existsb (Ascii.eqb a) outside = true) l ->
  forall s, all p s -> all (fun a => existsb (Ascii.eqb a) outside) s.
Proof.
  intros P F s. apply all_impl. intros a H. apply P in H. rewrite Forall_forall in F. apply F. exact H.
Qed.
Lemma out_blank s x : blank s -> scan 0 (s ++ x) = scan 0 x.
Proof.
  intros B. apply scan_out. revert B. apply (sub_out _ [ch 32; ch 9; ch 10; ch 13]).
  - intros a H. apply existsb_exists in H. destruct H as (y & I & E). apply Ascii.eqb_eq in E. subst y. exact I.
  - repeat (constructor; [reflexivity|]). constructor.
Qed.
Lemma out_number s x : number s -> scan 0 (s ++ x) = scan 0 x.
Proof.
  intros B. apply scan_out. apply number_all in B. revert B. apply (sub_out _ (S_ "0123456789" ++ S_ "+-.eE")).
  - intros a H. unfold numch, is_digit in H. apply orb_true_iff in H. rewrite !existsb_exists in H. apply in_or_app.
    destruct H as [(y & I & E)|(y & I & E)]; apply Ascii.eqb_eq in E; subst y; [left|right]; revert I; vm_compute; tauto.
  - repeat (constructor; [reflexivity|]). constructor.
Qed.
Lemma hex_plain a : is_hex a = true -> Ascii.eqb a DQ = false /\ Ascii.eqb a BS = false /\ (nat_of_ascii a <? 32)%nat = false.
Proof.
  unfold is_hex. rewrite existsb_exists. intros (y & I & E). apply Ascii.eqb_eq in E. subst y.
  repeat (destruct I as [<-|I]; [auto|]). destruct I.
Qed.
Lemma scan_chars l s : chars l s -> forall x, scan 1 (s ++ DQ :: x) = scan 0 x.
Proof.
  induction 1 as [|a l s (P & ND & NB) C IH|e a l s I C IH|h1 h2 h3 h4 l s H C IH]; intros x.
  - reflexivity.
  - cbn [app scan]. destruct (Ascii.eqb a DQ) eqn:E; [apply Ascii.eqb_eq in E; congruence|].
    destruct (Ascii.eqb a BS) eqn:E'; [apply Ascii.eqb_eq in E'; congruence|].
    destruct (Nat.ltb_spec (nat_of_ascii a) 32); [lia|]. apply IH.
  - cbn [app]. change (scan 1 (s ++ DQ :: x) = scan 0 x). apply IH.
  - cbn [app]. unfold all in H. cbn [forallb] in H. rewrite !andb_true_iff in H. destruct H as (H1 & H2 & H3 & H4 & _).
    change (scan 1 (h1 :: h2 :: h3 :: h4 :: s ++ DQ :: x) = scan 0 x). cbn [scan].
    destruct (hex_plain _ H1) as (-> & -> & ->), (hex_plain _ H2) as (-> & -> & ->), (hex_plain _ H3) as (-> & -> & ->), (hex_plain _ H4) as (-> & -> & ->).
    apply IH.
Qed.
Lemma scan_all :
  (forall j s, value j s -> forall x, scan 0 (s ++ x) = scan 0 x) /\ (forall l s, items l s -> forall x, scan 0 (s ++ x) = scan 0 x) /\
  (forall l s, members l s -> forall x, scan 0 (s ++ x) = scan 0 x).
Proof.
  assert (Q : forall l s, chars l s -> forall x, scan 0 ((DQ :: s ++ [DQ]) ++ x) = scan 0 x).
  { intros l s C x. cbn [app]. change (scan 1 ((s ++ [DQ]) ++ x) = scan 0 x). rewrite <- app_assoc. apply (scan_chars l s C). }
  apply value_all.
  - reflexivity.
  - reflexivity.
  - reflexivity.
  - intros s N x. apply out_number. exact N.
  - intros l s C x. apply (Q l s C).
  - intros w B x. rewrite <- !app_assoc. rewrite (scan_out (S_ "[")) by reflexivity. rewrite out_blank by exact B. apply scan_out. reflexivity.
  - intros l s _ IH x. rewrite <- !app_assoc. rewrite (scan_out (S_ "[")) by reflexivity. rewrite IH. apply scan_out. reflexivity.
  - intros w B x. rewrite <- !app_assoc. rewrite (scan_out (S_ "{")) by reflexivity. rewrite out_blank by exact B. apply scan_out. reflexivity.
  - intros l s _ IH x. rewrite <- !app_assoc. rewrite (scan_out (S_ "{")) by reflexivity. rewrite IH. apply scan_out. reflexivity.
  - intros j w s w' B _ IH B' x. rewrite <- !app_assoc. rewrite out_blank by exact B. rewrite IH. apply out_blank. exact B'.
  - intros j w s w' l t B _ IH B' _ IH' x. rewrite <- !app_assoc. rewrite out_blank by exact B. rewrite IH. rewrite out_blank by exact B'.
    rewrite (scan_out (S_ ",")) by reflexivity. apply IH'.
  - intros k ks j w s w' v v' B C B' Bv _ IH Bv' x. rewrite <- !app_assoc. rewrite out_blank by exact B. rewrite (Q k ks C). rewrite out_blank by exact B'.
    rewrite (scan_out (S_ ":")) by reflexivity. rewrite out_blank by exact Bv. rewrite IH. apply out_blank. exact Bv'.
  - intros k ks j w s w' v v' l t B C B' Bv _ IH Bv' _ IH' x. rewrite <- !app_assoc. rewrite out_blank by exact B. rewrite (Q k ks C). rewrite out_blank by exact B'.
    rewrite (scan_out (S_ ":")) by reflexivity. rewrite out_blank by exact Bv. rewrite IH. rewrite out_blank by exact Bv'.
    rewrite (scan_out (S_ ",")) by reflexivity. apply IH'.
Qed.
Lemma not_json s : scan 0 s = false -> ~ exists j, json_text j s.
Proof.
  intros H (j & w & t & w' & B & V & B' & ->). rewrite out_blank in H by exact B. rewrite (proj1 scan_all j t V) in H.
  rewrite <- (app_nil_r w'), out_blank in H by exact B'. discriminate H.
Qed.

Definition fmt0 (d : Z) : str := S_ "0.500000".
Definition fresh : buf := {| txt := []; blen := 1000 |}.
Definition nm_ (s : string) : tm := Leaf (VUri None (S_ s)).
Definition printed (m : mode) (c : clause) (s : str) : Prop := exists b, print_clause fmt0 m (Some c) fresh = Ok b /\ txt b = s.

(** p(1+2) is printed as [["p",[$sum,1,2]]]. *)
Theorem C58_operator_refuted :
  let c := Fact [nm_ "p"; Rec [nm_ "+"; Leaf (VInt 1); Leaf (VInt 2)]] in
  exists s, printed Json c s /\ ~ exists j, json_text j s.
Proof. eexists. split; [eexists; split; vm_compute; reflexivity|]. apply not_json. vm_compute. reflexivity. Qed.

(** A name that ends with a backslash, and a name with a newline. *)
Theorem C58_backslash_refuted : forall n, n = S_ "a" ++ [BS] \/ n = S_ "a" ++ [ch 10] ->
  exists s, printed Json (Fact [nm_ "p"; Leaf (VUri (Some (S_ "c")) n)]) s /\ ~ exists j, json_text j s.
Proof.
  intros n [-> | ->]; (eexists; split; [eexists; split; vm_compute; reflexivity|]; apply not_json; vm_compute; reflexivity).
Qed.

(** 1 and 2^32 + 1 are printed alike. *)
Theorem C58_integer_refuted : exists s,
  printed Json (Fact [nm_ "p"; Leaf (VInt 1)]) s /\ printed Json (Fact [nm_ "p"; Leaf (VInt (2 ^ 32 + 1))]) s.
Proof. eexists. split; (eexists; split; vm_compute; reflexivity). Qed.

(** A name that begins with a minus is taken for a negative literal, one with ?: for a variable and one with #: for a distinct
    symbol. *)
Theorem C58_names_refuted : exists s s' s'',
  printed Json (Rule [(true, Rec [nm_ "p"; nm_ "a"])]) s /\
  printed Json (Rule [(false, Rec [Leaf (VUri (Some (S_ "c")) (S_ "-p")); nm_ "a"])]) s /\
  printed Json (Rule [(false, Rec [nm_ "p"; Leaf (VVar 2000)])]) s' /\
  printed Json (Rule [(false, Rec [nm_ "p"; Leaf (VUri (Some (S_ "c")) (S_ "?:X"))])]) s' /\
  printed Json (Rule [(false, Rec [nm_ "p"; Leaf (VUri (Some (S_ "#")) (S_ "d"))])]) s'' /\
  printed Json (Rule [(false, Rec [nm_ "p"; Leaf (VUri (Some (S_ "c")) (S_ "#:d"))])]) s''.
Proof.
  eexists. eexists. eexists. split; [eexists; split; vm_compute; reflexivity|]. split; [eexists; split; vm_compute; reflexivity|].
  split; [eexists; split; vm_compute; reflexivity|]. split; [eexists; split; vm_compute; reflexivity|].
  split; (eexists; split; vm_compute; reflexivity).
Qed.

(** The quoted name 'a' and the bare name a are different constants for the prover and printed alike in JSON. *)
Theorem C58_prefix_refuted : exists s,
  printed Json (Fact [nm_ "p"; Leaf (VUri (Some (S_ "c")) (S_ "a"))]) s /\ printed Json (Fact [nm_ "p"; nm_ "a"]) s.
Proof. eexists. split; (eexists; split; vm_compute; reflexivity). Qed.

(** A name of 850 quotes is written outside the buffer of 1000 bytes a proof is printed into, in either form. *)
Theorem C58_quotes_refuted :
  print_clause fmt0 Json (Some (Fact [nm_ "p"; Leaf (VUri None (repeat DQ 850))])) fresh = Overrun /\
  print_clause fmt0 Plain (Some (Fact [nm_ "p"; Leaf (VUri None (repeat SQ 850))])) fresh = Overrun.
Proof. split; vm_compute; reflexivity. Qed.

(** Differences in differences: the name of the operator is cut at the end of the buffer, depending on what was printed before. *)
Fixpoint diffs (n : nat) : tm := match n with O => Leaf (VInt 7) | S k => Rec [nm_ "-"; diffs k; Leaf (VInt 7)] end.
Theorem C58_cut_refuted : exists b b' s,
  let c := Fact [nm_ "p"; diffs 12] in
  sound b /\ printed Plain c s /\ print_clause fmt0 Plain (Some c) b = Ok b' /\ txt b' <> txt b ++ s.
Proof.
  exists {| txt := repeat SP 891; blen := 1000 |}. eexists. eexists. cbv zeta. split; [split; vm_compute; [reflexivity|discriminate]|].
  split; [eexists; split; vm_compute; reflexivity|]. split; [vm_compute; reflexivity|].
  cbn [txt]. intros E. apply (f_equal (skipn 891)) in E. vm_compute in E. discriminate E.
Qed.

(** A double of 308 places (1e300 with %f) is cut. *)
Theorem C58_double_refuted : exists fmt b b',
  let c := Fact [nm_ "p"; Leaf (VDbl 0)] in
  number (fmt 0) /\ slen (fmt 0) = 308 /\ sound b /\ print_clause fmt Json (Some c) b = Ok b' /\
  txt b' <> txt b ++ S_ "[[" ++ DQ :: S_ "p" ++ DQ :: S_ "," ++ fmt 0 ++ S_ "]]".
Proof.
  exists (fun _ => ch 49 :: repeat (ch 48) 300 ++ S_ ".000000"). eexists {| txt := repeat SP 890; blen := 1000 |}. eexists. cbv zeta.
  split. { exists [], (ch 49 :: repeat (ch 48) 300), (S_ ".000000"), []. split; [reflexivity|]. split; [auto|]. split.
    - right. split; [split; [discriminate|reflexivity]|discriminate].
    - split; [right; exists (S_ "000000"); split; [reflexivity|split; [discriminate|reflexivity]]|auto]. }
  split; [reflexivity|]. split; [split; vm_compute; [reflexivity|discriminate]|]. split; [vm_compute; reflexivity|].
  cbn [txt]. intros E. apply (f_equal (skipn 890)) in E. vm_compute in E. discriminate E.
Qed.

(** In the plain form the variables 1 and 1000, and the number 12 and a constant 12, are printed alike. *)
Theorem C58_plain_refuted : exists s s',
  printed Plain (Rule [(false, Rec [nm_ "p"; Leaf (VVar 1); Leaf (VVar 1000)])]) s /\
  printed Plain (Rule [(false, Rec [nm_ "p"; Leaf (VVar 1); Leaf (VVar 1)])]) s /\
  printed Plain (Fact [nm_ "p"; Leaf (VInt 12)]) s' /\ printed Plain (Fact [nm_ "p"; nm_ "12"]) s'.
Proof.
  eexists. eexists. split; [eexists; split; vm_compute; reflexivity|]. split; [eexists; split; vm_compute; reflexivity|].
  split; (eexists; split; vm_compute; reflexivity).
Qed.

(** * Examples *)

(** A clause with a negative literal, a nested term, a variable, a quoted name, a distinct symbol and a number. *)
Definition ex : clause :=
  Rule [(true, Rec [nm_ "p"; Rec [nm_ "f"; Leaf (VVar 0); Leaf (VInt (-12))]; nm_ "b c"]);
        (false, Rec [nm_ "q"; Leaf (VUri (Some (S_ "#")) ([ch 100; DQ])); Leaf (VDbl 3)])].
Example ex_text : printed Json ex
  (S_ "[[" ++ DQ :: S_ "-p" ++ DQ :: S_ ",[" ++ DQ :: S_ "f" ++ DQ :: S_ "," ++ DQ :: S_ "?:0" ++ DQ :: S_ ",-12]," ++
   DQ :: S_ "b c" ++ DQ :: S_ "], [" ++ DQ :: S_ "q" ++ DQ :: S_ "," ++ DQ :: S_ "#:d" ++ BS :: DQ :: DQ :: S_ ",0.500000]]") /\
  printed Plain ex (S_ "-p(f(X0,-12),'b c') | q(" ++ DQ :: S_ "d" ++ BS :: DQ :: DQ :: S_ ",0.500000).").
Proof. split; (eexists; split; vm_compute; reflexivity). Qed.
Lemma half : number (S_ "0.500000").
Proof.
  exists [], (S_ "0"), (S_ ".500000"), []. split; [reflexivity|]. split; [auto|]. split; [left; reflexivity|].
  split; [right; exists (S_ "500000"); split; [reflexivity|split; [discriminate|reflexivity]]|auto].
Qed.
Definition noq (n : str) : option str := None.
Definition D3 (d : Z) : Prop := d = 3.
Ltac clean_nm := split; [repeat (constructor; [split; [vm_compute; lia|discriminate]|]); constructor | vm_compute; discriminate].
Example ex_clean : told_apart fmt0 D3 /\ clean fmt0 (Some ex) /\ in_clause (readable noq D3) (Some ex) /\ sound fresh.
Proof.
  split. { split; [unfold D3; intros; congruence|]. intros d _. right. left. reflexivity. }
  split. { cbn [clean clean_clause ex]. constructor; [|constructor; [|constructor]].
    - cbn [snd clean_atom nm_]. split; [clean_nm|]. split; [exact Logic.I|]. split; [discriminate|].
      constructor; [|constructor; [|constructor]].
      + cbn [clean_term]. split; [cbn [length]; lia|].
        split; [split; [clean_nm|exact Logic.I]|]. split; [cbn; intuition discriminate|].
        split; [cbn; lia|]. split; [cbn; tauto|]. split; [cbn; lia|]. split; [cbn; tauto|exact Logic.I].
      + split; [clean_nm|exact Logic.I].
    - cbn [snd clean_atom nm_]. split; [clean_nm|]. split; [exact Logic.I|]. split; [discriminate|].
      constructor; [|constructor; [|constructor]].
      + split; [clean_nm|vm_compute; discriminate].
      + split; [exact half|vm_compute; discriminate]. }
  split; [|split; vm_compute; [reflexivity|discriminate]].
  assert (B : forall (s : string) p, (forall r, S_ s <> S_ "-" ++ r) -> (forall r, S_ s <> S_ "?:" ++ r) -> (forall r, S_ s <> S_ "#:" ++ r) -> S_ s <> [] ->
    p = None -> readable noq D3 (VUri p (S_ s))).
  { intros s p A1 A2 A3 A4 ->. split; [exact A4|]. split; [intros (r & E); exact (A1 r E)|]. split; [intros (r & E); exact (A2 r E)|].
    split; [intros (r & E); exact (A3 r E)|]. right. split; reflexivity. }
  cbn [in_clause literals ex map fst snd fields]. constructor; [|constructor; [|constructor]].
  - constructor; [apply B; try discriminate; reflexivity|]. constructor; [|constructor; [apply B; try discriminate; reflexivity|constructor]].
    cbn [in_term]. split; [apply B; try discriminate; reflexivity|]. split; [exact Logic.I|]. split; [exact Logic.I|exact Logic.I].
  - constructor; [apply B; try discriminate; reflexivity|]. constructor; [|constructor; [reflexivity|constructor]].
    split; [discriminate|]. split; [intros (r & E); discriminate E|]. split; [intros (r & E); discriminate E|].
    split; [intros (r & E); discriminate E|]. left. reflexivity.
Qed.
Example ex_words : word_clause fmt0 noq D3 (Some ex).
Proof.
  assert (B : forall (s : string), S_ s <> [] -> ~ In BS (S_ s) -> quotes SQ (S_ s) <= 90 -> quotes DQ (S_ s) <= 90 ->
    (forall a r, S_ s = a :: r -> is_digit a = false /\ capital a = false) ->
    ~ In (S_ s) (map S_ ["$sum"; "$product"; "$difference"; "$quotient"; "$less"; "-"; "/"]) -> word noq None (S_ s)).
  { intros s A1 A2 A3 A4 A5 A6. split; [exact A1|]. split; [exact A2|]. split; [exact A3|]. split; [exact A4|]. split; [exact Logic.I|].
    split; [right; split; reflexivity|]. split; [intros _; exact A5|]. split; [exact A6|]. congruence. }
  assert (P : forall s, In s ["p"; "q"; "f"; "b c"]%string -> word noq None (S_ s)).
  { intros s I. apply B.
    - repeat (destruct I as [<-|I]; [discriminate|]). destruct I.
    - repeat (destruct I as [<-|I]; [vm_compute; intuition discriminate|]). destruct I.
    - repeat (destruct I as [<-|I]; [vm_compute; discriminate|]). destruct I.
    - repeat (destruct I as [<-|I]; [vm_compute; discriminate|]). destruct I.
    - intros a r E. repeat (destruct I as [<-|I]; [injection E as <- _; split; reflexivity|]). destruct I.
    - repeat (destruct I as [<-|I]; [vm_compute; intuition discriminate|]). destruct I. }
  cbn [word_clause ex]. constructor; [|constructor; [|constructor]]; cbn [snd word_atom nm_].
  - split; [apply P; cbn; tauto|]. constructor; [|constructor; [apply P; cbn; tauto|constructor]].
    cbn [word_term]. split; [apply P; cbn; tauto|]. split; [cbn; lia|]. split; [cbn; lia|exact Logic.I].
  - split; [apply P; cbn; tauto|]. constructor; [|constructor; [|constructor]].
    + cbn [word_term word_leaf]. split; [discriminate|]. split; [vm_compute; intuition discriminate|]. split; [vm_compute; discriminate|].
      split; [vm_compute; discriminate|]. split; [vm_compute; discriminate|]. split; [left; reflexivity|]. split; [discriminate|].
      split; [vm_compute; intuition discriminate|]. intros _. split; [vm_compute; intuition discriminate|discriminate].
    + cbn. split; [reflexivity|]. split; [exact half|vm_compute; discriminate].
Qed.

Print Assumptions C58_json_partial.
Print Assumptions C58_json_distinct_partial.
Print Assumptions C58_plain_distinct_partial.
Print Assumptions C58_no_overrun_partial.
Print Assumptions C58_operator_refuted.
Print Assumptions C58_backslash_refuted.
Print Assumptions C58_integer_refuted.
Print Assumptions C58_names_refuted.
Print Assumptions C58_prefix_refuted.
Print Assumptions C58_quotes_refuted.
Print Assumptions C58_cut_refuted.
Print Assumptions C58_double_refuted.
Print Assumptions C58_plain_refuted.
