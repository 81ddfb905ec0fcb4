(** C77: what is exported to a CSV file is read back, field by field. *)
From Coq Require Import ZArith Lia List Bool.
From Verif Require Import CsvModel.
Import ListNotations.
Open Scope Z_scope.

(** ** Specification *)
(** Room for the text of a string in the file: a quote takes two bytes *)
Fixpoint cost (s : list Z) : Z := match s with [] => 0 | c :: s => (if c =? 34 then 2 else 1) + cost s end.
(** The text of a value *)
Definition text (v : value) : list Z := match v with Null => [] | Plain t => t | Str s => s | Chr c => if c =? 0 then [] else [c] end.
(** No separator, quote or end of line in a text printed without quotes, and it fits *)
Definition clean (t : list Z) : Prop := (forall c, In c t -> c <> 44 /\ c <> 34 /\ c <> 10 /\ c <> 13) /\ len t <= 4095.
Definition fits (v : value) : Prop := match v with Str s => cost s <= 4091 | _ => clean (text v) end.
(** A record of one field with nothing in it is printed as an empty line *)
Definition blank (r : list value) : Prop := r = [] \/ exists v, r = [v] /\ text v = [] /\ forall s, v <> Str s.

(** ** Proof *)
Lemma cost_pos s : 0 <= cost s /\ len s <= cost s.
Proof. unfold len. induction s as [|c s [A B]]; cbn [cost length]; [lia|]. destruct (c =? 34); lia. Qed.
Fixpoint esc (s : list Z) : list Z := match s with [] => [] | c :: s => (if c =? QUOTE then [c; QUOTE] else [c]) ++ esc s end.
Lemma escape_all : forall s u b, u + cost s < b -> escape u b s = esc s.
Proof.
  induction s as [|c s IH]; intros u b L; [reflexivity|]. cbn [escape esc cost] in *. unfold QUOTE in *. pose proof (cost_pos s) as [P _].
  destruct (c =? 34); (match goal with |- context [?a <? ?b] => replace (a <? b) with true by (symmetry; apply Z.ltb_lt; lia) end); rewrite IH by lia; reflexivity.
Qed.
Lemma len_app a b : len (a ++ b) = len a + len b.
Proof. unfold len. rewrite app_length. lia. Qed.
Lemma len1 c : len [c] = 1. Proof. reflexivity. Qed.
Lemma len_pos l : 0 <= len l. Proof. unfold len. lia. Qed.
Lemma add_room b c : len b < 4095 -> add b c = b ++ [c].
Proof. intros L. unfold add. replace (len b <? FIELD_BUF - 1) with true; [reflexivity|]. symmetry. apply Z.ltb_lt. unfold FIELD_BUF. lia. Qed.
Lemma read_quoted : forall s b e r o rest, len b + len s <= 4095 -> hd_error rest <> Some 34 ->
  read (esc s ++ QUOTE :: rest) (mkS Quoted false e b r o) = read rest (mkS Idle false true [] (r ++ [b ++ s]) o).
Proof.
  induction s as [|c s IH]; intros b e r o rest L N.
  - cbn [esc app read]. unfold turn. cbn [md esc_quote negb andb]. rewrite Z.eqb_refl.
    assert (X : match hd_error rest with Some n => n =? QUOTE | None => false end = false) by (destruct (hd_error rest) as [n|]; [|reflexivity]; apply Z.eqb_neq; intros ->; apply N; reflexivity).
    rewrite X, app_nil_r. reflexivity.
  - cbn [esc]. change (c :: s) with ([c] ++ s) in L. rewrite len_app, len1 in L. pose proof (len_pos s) as P.
    assert (G : read (esc s ++ QUOTE :: rest) (mkS Quoted false e (b ++ [c]) r o) = read rest (mkS Idle false true [] (r ++ [b ++ c :: s]) o)).
    { rewrite IH; [rewrite <- app_assoc; reflexivity|rewrite len_app, len1; lia|exact N]. }
    destruct (Z.eqb_spec c QUOTE) as [->|D].
    + cbn [app read hd_error]. unfold turn at 2. cbn [md esc_quote negb andb]. rewrite Z.eqb_refl. unfold setesc at 1. cbn [md eat_sep buf row out].
      unfold turn. cbn [md esc_quote negb andb]. unfold put, setesc. cbn [md esc_quote eat_sep buf row out]. rewrite add_room by lia. exact G.
    + cbn [app read]. unfold turn. cbn [md esc_quote negb]. rewrite (proj2 (Z.eqb_neq c QUOTE) D). cbn [andb]. unfold put, setesc. cbn [md esc_quote eat_sep buf row out].
      rewrite add_room by lia. exact G.
Qed.
Definition ends (sep : Z) : Prop := sep = SEP \/ sep = LF.
(** After a field and what ends it *)
Definition after (sep : Z) (r : list (list Z)) (t : list Z) (o : list (list (list Z))) : st :=
  if sep =? SEP then mkS Idle false false [] (r ++ [t]) o else mkS Idle false false [] [] (o ++ [r ++ [t]]).
Lemma commit_snoc m e a b r t o : commit_record (mkS m e a b (r ++ [t]) o) = mkS m e a b [] (o ++ [r ++ [t]]).
Proof. unfold commit_record. cbn [row md esc_quote eat_sep buf out]. destruct (r ++ [t]) eqn:E; [destruct r; discriminate|reflexivity]. Qed.
Lemma read_plain : forall t b r o sep rest, ends sep -> (forall c, In c t -> c <> 44 /\ c <> 34 /\ c <> 10 /\ c <> 13) -> len b + len t <= 4095 ->
  read (t ++ sep :: rest) (mkS Unquoted false false b r o) = read rest (after sep r (b ++ t) o).
Proof.
  induction t as [|c t IH]; intros b r o sep rest E C L.
  - cbn [app read]. rewrite app_nil_r. destruct E as [-> | ->]; unfold turn, after; cbn [md].
    + reflexivity.
    + change (LF =? SEP) with false. change (LF =? CR) with false. rewrite Z.eqb_refl. unfold commit_strbuf, setmode. cbn [md esc_quote eat_sep buf row out]. rewrite commit_snoc. reflexivity.
  - cbn [app read]. destruct (C c (or_introl eq_refl)) as (C1 & C2 & C3 & C4). unfold turn. cbn [md]. unfold SEP, CR, LF in *.
    rewrite (proj2 (Z.eqb_neq _ _) C1), (proj2 (Z.eqb_neq _ _) C4), (proj2 (Z.eqb_neq _ _) C3). unfold put. cbn [md esc_quote eat_sep buf row out].
    change (c :: t) with ([c] ++ t) in L. rewrite len_app, len1 in L. pose proof (len_pos t) as P. rewrite add_room by lia.
    rewrite IH; [rewrite <- app_assoc; reflexivity|exact E|intros x X; apply C; right; exact X|rewrite len_app, len1; lia].
Qed.
Lemma read_field v r o sep rest : ends sep -> fits v -> (sep = LF -> r = [] -> text v = [] -> exists s, v = Str s) ->
  read (print_value v 4095 ++ sep :: rest) (mkS Idle false false [] r o) = read rest (after sep r (text v) o).
Proof.
  intros E F B.
  assert (W : forall t, clean t -> (sep = LF -> r = [] -> t <> []) -> read (t ++ sep :: rest) (mkS Idle false false [] r o) = read rest (after sep r t o)).
  { intros t [C L] K. destruct t as [|c t].
    - cbn [app read]. destruct E as [-> | ->]; unfold turn, after; cbn [md]; [reflexivity|]. change (LF =? SEP) with false. change (LF =? CR) with false. rewrite Z.eqb_refl. cbn [eat_sep row].
      destruct r as [|x r]; [destruct (K eq_refl eq_refl eq_refl)|]. unfold commit_strbuf. cbn [md esc_quote eat_sep buf row out]. rewrite commit_snoc. reflexivity.
    - cbn [app read]. destruct (C c (or_introl eq_refl)) as (C1 & C2 & C3 & C4). unfold turn. cbn [md]. unfold SEP, CR, LF, QUOTE in *.
      rewrite (proj2 (Z.eqb_neq _ _) C1), (proj2 (Z.eqb_neq _ _) C4), (proj2 (Z.eqb_neq _ _) C3), (proj2 (Z.eqb_neq _ _) C2). cbn [esc_quote eat_sep buf row out app].
      rewrite (read_plain t [c] r o sep rest); [reflexivity|exact E|intros x X; apply C; right; exact X|]. change (c :: t) with ([c] ++ t) in L. rewrite len_app in L. exact L. }
  destruct v as [|t|s|c]; cbn [print_value text] in *.
  - apply W; [exact F|]. intros A1 A2 A3. destruct (B A1 A2 A3) as [s S]. discriminate.
  - apply W; [exact F|]. intros A1 A2 A3. destruct (B A1 A2 A3) as [s S]. discriminate.
  - unfold escaped_str. cbn [fits] in F. rewrite escape_all by lia. cbn [app]. rewrite <- app_assoc. cbn [app read]. unfold turn at 1. cbn [md].
    change (QUOTE =? SEP) with false. change (QUOTE =? CR) with false. change (QUOTE =? LF) with false. rewrite Z.eqb_refl. unfold setmode. cbn [esc_quote eat_sep buf row out].
    pose proof (cost_pos s) as [_ P]. rewrite read_quoted; [|change (len []) with 0; lia|cbn; destruct E as [-> | ->]; discriminate].
    cbn [app read]. destruct E as [-> | ->]; unfold turn, after; cbn [md]; [reflexivity|]. change (LF =? SEP) with false. change (LF =? CR) with false. rewrite Z.eqb_refl. cbn [eat_sep].
    unfold seteat. cbn [md esc_quote eat_sep buf row out]. rewrite commit_snoc. reflexivity.
  - apply W; [exact F|]. intros A1 A2 A3. destruct (B A1 A2 A3) as [s S]. discriminate.
Qed.
Lemma read_rest : forall l v r o rest, fits v -> Forall fits l -> (l = [] -> r = [] -> text v = [] -> exists s, v = Str s) ->
  read (print_value v 4095 ++ print_fields false l ++ LF :: rest) (mkS Idle false false [] r o) = read rest (mkS Idle false false [] [] (o ++ [r ++ map text (v :: l)])).
Proof.
  induction l as [|w l IH]; intros v r o rest F FL B.
  - cbn [print_fields app]. rewrite read_field; [reflexivity|right; reflexivity|exact F|]. intros _. apply B. reflexivity.
  - inversion FL as [|? ? Fw FL']; subst. cbn [print_fields]. change (FIELD_BUF - 1) with 4095. rewrite <- !app_assoc. cbn [app].
    rewrite read_field; [|left; reflexivity|exact F|discriminate]. unfold after. rewrite Z.eqb_refl.
    rewrite IH; [rewrite <- app_assoc; reflexivity|exact Fw|exact FL'|]. intros _ X. destruct r; discriminate.
Qed.
Lemma blank_dec r : {blank r} + {~ blank r}.
Proof.
  unfold blank. destruct r as [|v [|w l]]; [left; left; reflexivity| |right; intros [H|(x & H & _)]; discriminate].
  destruct v as [|t|s|c].
  - left. right. exists Null. split; [reflexivity|]. split; [reflexivity|]. discriminate.
  - destruct t as [|c t]; [left; right; exists (Plain []); split; [reflexivity|split; [reflexivity|discriminate]]|right; intros [H|(x & H & T & _)]; [discriminate|]; injection H as <-; discriminate].
  - right. intros [H|(x & H & _ & K)]; [discriminate|]. injection H as <-. exact (K s eq_refl).
  - destruct (c =? 0) eqn:Q; [left; right; exists (Chr c); split; [reflexivity|split; [cbn; rewrite Q; reflexivity|discriminate]]|right; intros [H|(x & H & T & _)]; [discriminate|]; injection H as <-; cbn in T; rewrite Q in T; discriminate].
Qed.
Definition kept (rows : list (list value)) : list (list value) := filter (fun r => if blank_dec r then false else true) rows.
Lemma read_rows : forall rows o, Forall (Forall fits) rows ->
  read (export rows) (mkS Idle false false [] [] o) = mkS Idle false false [] [] (o ++ map (map text) (kept rows)).
Proof.
  induction rows as [|r rows IH]; intros o F; [cbn; rewrite app_nil_r; reflexivity|]. inversion F as [|? ? Fr FR]; subst.
  change (export (r :: rows)) with ((print_fields true r ++ [LF]) ++ export rows). rewrite <- app_assoc. cbn [app kept filter].
  destruct (blank_dec r) as [B|B]; fold (kept rows).
  - assert (E : print_fields true r = []).
    { destruct B as [-> |(v & -> & T & K)]; [reflexivity|]. cbn [print_fields app]. rewrite app_nil_r. destruct v as [|t|s|c]; cbn [text print_value] in *; [reflexivity|exact T|destruct (K s eq_refl)|exact T]. }
    rewrite E. cbn [app read]. rewrite <- (IH o FR). reflexivity.
  - destruct r as [|v l]; [destruct (B (or_introl eq_refl))|]. inversion Fr as [|? ? Fv Fl]; subst. cbn [print_fields app]. change (FIELD_BUF - 1) with 4095. rewrite <- app_assoc.
    rewrite read_rest; [|exact Fv|exact Fl|].
    + rewrite IH by exact FR. cbn [app map]. rewrite <- app_assoc. reflexivity.
    + intros -> _ T. destruct v as [|t|s|c]; [| |exists s; reflexivity|]; destruct B; right; eexists; (split; [reflexivity|split; [exact T|discriminate]]).
Qed.
(** Every database whose texts fit: the file is read back as the same records with the same texts in the same
    order, whatever quotes, separators and line ends the strings contain; only blank records are left out.
    Missing: longer strings and characters that are separators (refuted below), the types of the fields. *)
Theorem C77_csv_partial : forall rows, Forall (Forall fits) rows ->
  exists kept, import (export rows) = map (map text) kept /\
    (forall r, In r kept <-> In r rows /\ ~ blank r) /\ ((forall r, In r rows -> ~ blank r) -> kept = rows).
Proof.
  intros rows F. exists (kept rows). unfold import. rewrite read_rows by exact F. split; [reflexivity|]. split.
  - intros r. unfold kept. rewrite filter_In. destruct (blank_dec r) as [B|B]; split; intros [X Y]; try discriminate; try contradiction; (split; [exact X|]); [exact B|reflexivity].
  - clear F. induction rows as [|r rows IH]; intros H; [reflexivity|]. cbn [kept filter]. destruct (blank_dec r) as [B|B]; [destruct (H r (or_introl eq_refl) B)|].
    f_equal. apply IH. intros x X. apply H. right. exact X.
Qed.
(** However long a string is, its text with the quotes and the final zero fits the buffer of 4096 bytes *)
Lemma escape_len : forall s u b, u < b -> u + len (escape u b s) < b.
Proof.
  induction s as [|c s IH]; intros u b L; cbn [escape]; [change (len []) with 0; lia|].
  destruct (Z.ltb_spec (u + (if c =? QUOTE then 2 else 1)) b) as [H|H]; [|change (len []) with 0; lia].
  pose proof (IH _ b H) as K. rewrite len_app. destruct (c =? QUOTE); [change (len [c; QUOTE]) with 2|rewrite len1]; lia.
Qed.
Theorem C77_buffer : forall s, len (print_value (Str s) (FIELD_BUF - 1)) + 1 <= FIELD_BUF.
Proof.
  intros s. cbn [print_value]. unfold escaped_str. change (FIELD_BUF - 1 - 1 - 1) with 4093. change (QUOTE :: escape 1 4093 s ++ [QUOTE]) with ([QUOTE] ++ escape 1 4093 s ++ [QUOTE]).
  rewrite !len_app, !len1. pose proof (escape_len s 1 4093). unfold FIELD_BUF. lia.
Qed.
(** A string that begins with neither a digit nor a minus sign is a string again *)
Theorem C77_strings : forall isdate istime c s, (c < 48 \/ 57 < c) -> c <> 45 -> input_type isdate istime (c :: s) = TStr.
Proof.
  intros d t c s R M. cbn [input_type]. rewrite (proj2 (Z.eqb_neq c 45) M). cbn [andb]. rewrite orb_false_r.
  assert (D : digit c = false) by (unfold digit; apply andb_false_iff; destruct R; [left|right]; apply Z.leb_gt; assumption). rewrite D. reflexivity.
Qed.

(** The string "5" is read back as an integer, the string "" as no value; the quotes do not count *)
Theorem C77_types_refuted : forall isdate istime, isdate [53] = false -> istime [53] = false ->
  import (export [[Str [53]; Str []]]) = [[[53]; []]] /\ input_type isdate istime [53] = TInt /\ input_type isdate istime [] = TNull.
Proof. intros d t D T. split; [vm_compute; reflexivity|]. split; [|reflexivity]. cbn. rewrite D, T. reflexivity. Qed.
(** A comma as a character is read back as two fields; a record with one empty field is lost *)
Theorem C77_characters_refuted : import (export [[Plain [49]; Chr 44; Plain [50]]]) = [[[49]; []; []; [50]]] /\ import (export [[Null]]) = [].
Proof. vm_compute. split; reflexivity. Qed.
(** A string that does not fit is cut without notice *)
Theorem C77_long_refuted : forall c, c <> 34 -> export [[Str (repeat c 4092)]] = export [[Str (repeat c 4091)]].
Proof.
  assert (G : forall c, c <> 34 -> forall n u, u + Z.of_nat n + 1 = 4093 -> escape u 4093 (repeat c (S n)) = escape u 4093 (repeat c n)).
  { intros c N. induction n as [|n IH]; intros u L.
    - cbn [repeat escape]. unfold QUOTE. rewrite (proj2 (Z.eqb_neq c 34) N). replace (u + 1 <? 4093) with false by (symmetry; apply Z.ltb_ge; lia). reflexivity.
    - change (repeat c (S (S n))) with (c :: repeat c (S n)). change (repeat c (S n)) with (c :: repeat c n) at 2. cbn [escape]. unfold QUOTE. rewrite (proj2 (Z.eqb_neq c 34) N).
      destruct (u + 1 <? 4093); [|reflexivity]. rewrite IH by lia. reflexivity. }
  intros c N. unfold export. cbn [flat_map print_fields print_value app]. unfold escaped_str. change (FIELD_BUF - 1 - 1 - 1) with 4093.
  pose proof (G c N (Z.to_nat 4091) 1 eq_refl) as H. change (S (Z.to_nat 4091)) with 4092%nat in H. change (Z.to_nat 4091) with 4091%nat in H. rewrite H. reflexivity.
Qed.

(** Strings with a quote, a separator and a line end; empty fields at both ends; a blank record *)
Example csv_case : Forall (Forall fits) [[Null; Str [34; 44; 10; 34]; Plain [45; 49]; Null]; [Null]; [Str []]] /\
  import (export [[Null; Str [34; 44; 10; 34]; Plain [45; 49]; Null]; [Null]; [Str []]]) = [[[]; [34; 44; 10; 34]; [45; 49]; []]; [[]]].
Proof.
  split; [|vm_compute; reflexivity]. assert (C : fits Null) by (split; [intros c []|cbn; lia]).
  repeat constructor; try exact C; cbn [fits cost text]; try (cbn; lia); try (intros [ <-|[ <-|[]]]; lia); try (intros c []); try discriminate;
  try (cbn in *; intuition lia).
Qed.

Print Assumptions C77_csv_partial.
Print Assumptions C77_buffer.
Print Assumptions C77_strings.
Print Assumptions C77_types_refuted.
Print Assumptions C77_characters_refuted.
Print Assumptions C77_long_refuted.
