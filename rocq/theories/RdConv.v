(** What the reading of a proper term stands for. *)
From Coq Require Import String Ascii Bool Arith ZArith Lia List Permutation.
From Verif Require Import DateModel DateSpec DateProof RdModel RdSpec RdBase RdProof.
Import ListNotations.
Open Scope string_scope.
Open Scope list_scope.
Open Scope nat_scope.

(** * Characters and numerals *)
Lemma upper_capital c : upper c = existsb (Ascii.eqb c) (list_ascii_of_string "ABCDEFGHIJKLMNOPQRSTUVWXYZ").
Proof. destruct c as [[] [] [] [] [] [] [] []]; reflexivity. Qed.
Lemma upper_iff c : upper c = true <-> capital c.
Proof.
  rewrite upper_capital, existsb_exists. unfold capital. split.
  - intros (x & I & E). apply Ascii.eqb_eq in E. subst. auto.
  - intros I. exists c. split; auto. apply Ascii.eqb_refl.
Qed.
Lemma head_iff (f : ascii -> bool) (P : ascii -> Prop) s : (forall c, f c = true <-> P c) -> (head_is f s = true <-> starts P s).
Proof.
  intros H. unfold starts. destruct s as [|c r]; cbn.
  - split; [easy|]. intros (a & r & E & _). discriminate.
  - rewrite H. split; [eauto|]. intros (a & r' & E & P'). inversion E; subst; auto.
Qed.

Lemma digit_step c n acc r : digit c n -> digits (String c r) acc = digits r (acc * 10 + n)%Z.
Proof.
  intros [B E]. cbn [digits]. rewrite E.
  replace ((48 <=? Z.to_nat (48 + n)) && (Z.to_nat (48 + n) <=? 57)) with true.
  2:{ symmetry. apply andb_true_intro. split; apply Nat.leb_le; lia. }
  f_equal. lia.
Qed.
Lemma numeral_digits s z : numeral s z -> forall acc,
  digits s acc = (acc * 10 ^ Z.of_nat (String.length s) + z)%Z.
Proof.
  intros N. induction N as [c n D|c n s z D N IH]; intros acc.
  - rewrite (digit_step c n acc "" D). cbn. lia.
  - rewrite (digit_step c n acc s D), IH. cbn [String.length]. rewrite Nat2Z.inj_succ, Z.pow_succ_r by lia. ring.
Qed.
Lemma numeral_pos s z : numeral s z -> (0 <= z)%Z.
Proof.
  intros N. induction N as [c n [D _]|c n s z [D _] N IH]; [lia|].
  assert (0 <= 10 ^ Z.of_nat (String.length s))%Z by (apply Z.pow_nonneg; lia). nia.
Qed.
Lemma digit_not_minus c n : digit c n -> Ascii.eqb c "-" = false.
Proof.
  intros [B E]. apply Ascii.eqb_neq. intros ->. change (nat_of_ascii "-") with 45 in E. lia.
Qed.
Lemma numeral_strtol s z : numeral s z -> (z < 2 ^ 63)%Z -> strtol s = Some z.
Proof.
  intros N B. pose proof (numeral_pos _ _ N) as P. pose proof (numeral_digits _ _ N 0%Z) as D.
  assert (H : exists c r, s = String c r /\ Ascii.eqb c "-" = false).
  { inversion N; subst; eauto using digit_not_minus. }
  destruct H as (c & r & -> & E). unfold strtol. rewrite E, D.
  replace (0 * 10 ^ Z.of_nat (String.length (String c r)) + z)%Z with z by lia.
  replace ((- 2 ^ 63 <=? z) && (z <? 2 ^ 63))%Z with true; auto.
  symmetry. apply andb_true_intro. split; [apply Z.leb_le|apply Z.ltb_lt]; lia.
Qed.
Lemma to_int_small z : (0 <= z < 2 ^ 31)%Z -> to_int z = z.
Proof. intros B. unfold to_int. rewrite Z.mod_small; lia. Qed.
Lemma numeral_nonempty s z : numeral s z -> s <> "".
Proof. intros N. inversion N; easy. Qed.
Lemma two_digits a b n : two a b n -> digits (String a (String b "")) 0 = n /\ (0 <= n <= 99)%Z.
Proof.
  intros (x & y & [A A'] & [B B'] & ->). rewrite (digit_step a x), (digit_step b y) by (split; auto). cbn [digits]. lia.
Qed.
Lemma four_digits a b c d m n : two a b m -> two c d n ->
  digits (String a (String b (String c (String d "")))) 0 = (100 * m + n)%Z.
Proof.
  intros (x & y & [A A'] & [B B'] & ->) (u & v & [C C'] & [D D'] & ->).
  rewrite (digit_step a x), (digit_step b y), (digit_step c u), (digit_step d v) by (split; auto). cbn [digits]. lia.
Qed.

Section C.
  Variable caps quest : bool.
  Variable strtod : string -> option Z.
  Notation prim := (parse_primitive caps quest strtod).
  Notation conv := (conv caps quest strtod).
  Notation conv_all := (conv_all caps quest strtod).
  Notation variable := (variable caps quest).
  Notation constant := (constant strtod).
  Notation stands := (stands caps quest strtod).
  Notation proper := (proper caps quest strtod).
  Notation vars := (vars caps quest).
  Notation many := (many caps quest).

  Lemma var_name_iff s : var_name caps quest s = true <->
    (caps = true /\ starts capital s) \/ (quest = true /\ starts (fun c => c = "?"%char) s).
  Proof.
    unfold var_name. rewrite orb_true_iff, !andb_true_iff.
    rewrite (head_iff upper capital s upper_iff).
    rewrite (head_iff (fun c => Ascii.eqb c "?") (fun c => c = "?"%char) s) by (intros; apply Ascii.eqb_eq). reflexivity.
  Qed.

  Lemma const_prim a v vd : ~ variable a -> constant a v -> prim (PA a) vd 1 = Ok (v, vd).
  Proof.
    intros NV C. destruct C as [s pre NE| |s o z N B|s o b NE E|a b c d e f g i o y1 y2 m n Y1 Y2 M N V|a b c d e f o h m n H M N V];
      unfold parse_primitive; cbn [a_s1 a_s2 a_ty].
    - apply String.eqb_neq in NE. rewrite NE. destruct pre as [pre|]; [reflexivity|]. cbn [Nat.eqb].
      destruct (var_name caps quest s) eqn:VN; [|reflexivity]. elim NV. right. cbn. split; [auto|split; [auto|]].
      apply var_name_iff; auto.
    - reflexivity.
    - pose proof (numeral_nonempty _ _ N) as NE. apply String.eqb_neq in NE. rewrite NE.
      pose proof (numeral_pos _ _ N).
      rewrite (numeral_strtol s z N) by lia. rewrite to_int_small by lia. reflexivity.
    - apply String.eqb_neq in NE. rewrite NE, E. reflexivity.
    - cbn [String.eqb]. do 3 f_equal.
      unfold strp_date. cbn [substring].
      rewrite (four_digits _ _ _ _ _ _ Y1 Y2), (proj1 (two_digits _ _ _ M)), (proj1 (two_digits _ _ _ N)).
      apply date_number; auto. apply date_in_range; auto.
      pose proof (proj2 (two_digits _ _ _ Y1)). pose proof (proj2 (two_digits _ _ _ Y2)). lia.
    - cbn [String.eqb]. do 3 f_equal.
      unfold strp_time. cbn [substring].
      rewrite (proj1 (two_digits _ _ _ H)), (proj1 (two_digits _ _ _ M)), (proj1 (two_digits _ _ _ N)).
      rewrite time_value by auto. lia.
  Qed.
  Lemma var_prim a vd : variable a -> a_s1 a <> "" -> prim (PA a) vd 1 = read_var vd (a_s1 a).
  Proof.
    intros V NE. apply String.eqb_neq in NE. unfold parse_primitive. rewrite NE.
    destruct V as [->|(-> & -> & V)]; [reflexivity|]. cbn [Nat.eqb].
    apply var_name_iff in V. rewrite V. reflexivity.
  Qed.
  Lemma symbol_prim f v vd : symbol f v -> prim (PA f) vd 0 = Ok (v, vd).
  Proof.
    intros [s pre NE|s o I]; unfold parse_primitive; cbn [a_s1 a_s2 a_ty].
    - apply String.eqb_neq in NE. rewrite NE. destruct pre; reflexivity.
    - cbn [In] in I. repeat (destruct I as [<-|I]; [destruct o; reflexivity|]). easy.
  Qed.
  Lemma function_prim f v vd : function f v -> prim (arith_name (PA f)) vd 0 = Ok (v, vd).
  Proof.
    intros [f' s A|f' v' NA S].
    - destruct A; reflexivity.
    - replace (arith_name (PA f')) with (PA f'); [apply symbol_prim; auto|].
      destruct f' as [ty s o]. cbn [arith_name a_s1].
      destruct (String.eqb_spec s "$sum") as [->|]; [elim (NA _ (ar_sum ty o))|].
      destruct (String.eqb_spec s "$difference") as [->|]; [elim (NA _ (ar_dif ty o))|].
      destruct (String.eqb_spec s "$product") as [->|]; [elim (NA _ (ar_pro ty o))|].
      destruct (String.eqb_spec s "$quotient") as [->|]; [elim (NA _ (ar_quo ty o))|]. reflexivity.
  Qed.
  Lemma symbol_named f v : symbol f v -> a_s1 f <> "".
  Proof.
    intros [s pre NE|s o I]; cbn; auto. cbn [In] in I. repeat (destruct I as [<-|I]; [easy|]). easy.
  Qed.
  Lemma function_named f v : function f v -> named f.
  Proof. intros [f' s A|f' v' NA S]; [destruct A; easy|]. eapply symbol_named; eauto. Qed.

  Lemma wterm_ind' (P : wterm -> Prop) :
    (forall a, P (WA a)) -> (forall f ts, Forall P ts -> P (WF f ts)) -> (forall ts, Forall P ts -> P (WL ts)) ->
    forall t, P t.
  Proof.
    intros HA HF HL. fix IH 1. intros [a|f ts|ts].
    - apply HA.
    - apply HF. induction ts; constructor; auto.
    - apply HL. induction ts; constructor; auto.
  Qed.
  Lemma proper_named t : proper t -> heads_named t.
  Proof.
    induction t as [a|f ts IH|ts IH] using wterm_ind'; intros P; [constructor| |]; inversion P; subst; constructor.
    - eapply function_named; eauto.
    - rewrite Forall_forall in *. auto.
    - rewrite Forall_forall in *. auto.
  Qed.

  (** * Numbering *)
  Definition ext1 (vd : list string) (x : string) : list string :=
    if in_dec string_dec x vd then vd else vd ++ [x].
  Definition ext (vd xs : list string) : list string := fold_left ext1 xs vd.
  Lemma ext_app vd xs ys : ext vd (xs ++ ys) = ext (ext vd xs) ys.
  Proof. apply fold_left_app. Qed.
  Lemma ext_grows xs : forall vd, exists e, ext vd xs = vd ++ e.
  Proof.
    induction xs as [|x xs IH]; intros vd; [exists []; rewrite app_nil_r; auto|]. cbn.
    destruct (IH (ext1 vd x)) as (e & E). unfold ext in E. rewrite E. unfold ext1.
    destruct in_dec; eauto. exists ([x] ++ e). rewrite app_assoc. auto.
  Qed.
  Lemma ext_len vd xs : length vd <= length (ext vd xs).
  Proof. destruct (ext_grows xs vd) as (e & ->). rewrite app_length. lia. Qed.
  Lemma ext_nodup xs : forall vd, NoDup vd -> NoDup (ext vd xs).
  Proof.
    induction xs as [|x xs IH]; intros vd N; auto. cbn. apply IH. unfold ext1. destruct in_dec; auto.
    apply Permutation_NoDup with (l := x :: vd); [apply Permutation_cons_append|]. constructor; auto.
  Qed.
  Lemma ext_in xs : forall vd y, In y (ext vd xs) <-> In y vd \/ In y xs.
  Proof.
    induction xs as [|x xs IH]; intros vd y; cbn; [intuition|]. unfold ext in IH. rewrite IH. unfold ext1.
    destruct in_dec as [I|I].
    - intuition. subst; auto.
    - rewrite in_app_iff. cbn. intuition.
  Qed.
  Lemma var_index_spec vd s : match var_index vd s with
    | Some i => nth_error vd i = Some s | None => ~ In s vd end.
  Proof.
    induction vd as [|x vd IH]; cbn; [auto|]. destruct (String.eqb_spec x s) as [->|N]; [reflexivity|].
    destruct (var_index vd s); cbn; auto. intuition.
  Qed.
  Definition agrees (r : string -> nat) (vd : list string) : Prop := forall i x, nth_error vd i = Some x -> r x = i.
  Lemma agrees_sub r vd e : agrees r (vd ++ e) -> agrees r vd.
  Proof.
    intros A i x E. apply A. rewrite nth_error_app1; auto. apply nth_error_Some. congruence.
  Qed.
  Lemma agrees_ext r vd xs : agrees r (ext vd xs) -> agrees r vd.
  Proof. destruct (ext_grows xs vd) as (e & ->). apply agrees_sub. Qed.
  Lemma read_var_ok vd x : length vd <= 1000 ->
    if length (ext vd [x]) <=? 1000 then
      exists v, read_var vd x = Ok (v, ext vd [x]) /\ forall r, agrees r (ext vd [x]) -> v = VVar (r x)
    else read_var vd x = Fail.
  Proof.
    intros B. cbn [ext fold_left]. unfold read_var, ext1. pose proof (var_index_spec vd x) as V.
    destruct (var_index vd x) as [i|].
    - destruct in_dec as [I|I]; [|elim I; eapply nth_error_In; eauto].
      replace (length vd <=? 1000) with true by (symmetry; apply Nat.leb_le; auto).
      eexists. split; [reflexivity|]. intros r A. rewrite (A i x V). reflexivity.
    - destruct in_dec as [I|I]; [easy|]. rewrite app_length. change (length [x]) with 1.
      change vardatalen with 1000.
      destruct (Nat.ltb_spec (length vd) 1000) as [H|H]; destruct (Nat.leb_spec (length vd + 1) 1000) as [H'|H']; try lia; auto.
      eexists. split; [reflexivity|]. intros r A. rewrite (A (length vd) x); auto.
      rewrite nth_error_app2, Nat.sub_diag by lia. reflexivity.
  Qed.

  Definition conv_good (t : wterm) : Prop := forall xs vd, proper t -> vars t xs -> length vd <= 1000 ->
    if length (ext vd xs) <=? 1000 then
      exists v, conv t vd = Ok (v, ext vd xs) /\ forall r, agrees r (ext vd xs) -> stands r t v
    else conv t vd = Fail.
  Lemma conv_all_good ts : Forall conv_good ts -> forall xs vd, Forall proper ts -> many ts xs -> length vd <= 1000 ->
    if length (ext vd xs) <=? 1000 then
      exists vs, conv_all ts vd = Ok (vs, ext vd xs) /\ forall r, agrees r (ext vd xs) -> Forall2 (stands r) ts vs
    else conv_all ts vd = Fail.
  Proof.
    intros G. induction G as [|t ts T G IH]; intros xs vd P M B.
    - inversion M; subst. cbn. replace (length vd <=? 1000) with true by (symmetry; apply Nat.leb_le; auto).
      eexists. split; [reflexivity|]. constructor.
    - inversion M as [|? ? ys zs V M']; subst. inversion P as [|? ? PT PS]; subst. cbn [RdProof.conv_all].
      rewrite ext_app. pose proof (T ys vd PT V B) as H1.
      pose proof (ext_len (ext vd ys) zs) as L.
      destruct (Nat.leb_spec (length (ext vd ys)) 1000) as [B1|B1].
      + destruct H1 as (v & -> & H1). cbn [bindr]. pose proof (IH zs (ext vd ys) PS M' B1) as H2.
        destruct (Nat.leb_spec (length (ext (ext vd ys) zs)) 1000) as [B2|B2].
        * destruct H2 as (vs & -> & H2). cbn [bindr]. eexists. split; [reflexivity|]. intros r A. constructor; auto.
          apply H1. eapply agrees_ext; eauto.
        * rewrite H2. reflexivity.
      + rewrite H1. destruct (Nat.leb_spec (length (ext (ext vd ys) zs)) 1000); [lia|reflexivity].
  Qed.
  Lemma list_good ts : Forall conv_good ts -> forall xs vd, Forall proper ts -> many ts xs -> length vd <= 1000 ->
    if length (ext vd xs) <=? 1000 then
      exists v, conv (WL ts) vd = Ok (v, ext vd xs) /\ forall r, agrees r (ext vd xs) -> stands r (WL ts) v
    else conv (WL ts) vd = Fail.
  Proof.
    intros G. induction G as [|t ts T G IH]; intros xs vd P M B.
    - inversion M; subst. cbn. replace (length vd <=? 1000) with true by (symmetry; apply Nat.leb_le; auto).
      eexists. split; [reflexivity|]. constructor.
    - inversion M as [|? ? ys zs V M']; subst. inversion P as [|? ? PT PS]; subst.
      change (conv (WL (t :: ts)) vd) with (bindr (conv t vd) (fun '(v, vd) => bindr (conv (WL ts) vd) (fun '(w, vd) =>
                        Ok (VRec [VUri "$list" None; v; w], vd)))).
      rewrite ext_app. pose proof (T ys vd PT V B) as H1.
      pose proof (ext_len (ext vd ys) zs) as L.
      destruct (Nat.leb_spec (length (ext vd ys)) 1000) as [B1|B1].
      + destruct H1 as (v & -> & H1). cbn [bindr]. pose proof (IH zs (ext vd ys) PS M' B1) as H2.
        destruct (Nat.leb_spec (length (ext (ext vd ys) zs)) 1000) as [B2|B2].
        * destruct H2 as (w & -> & H2). cbn [bindr]. eexists. split; [reflexivity|]. intros r A. constructor; auto.
          apply H1. eapply agrees_ext; eauto.
        * rewrite H2. reflexivity.
      + rewrite H1. destruct (Nat.leb_spec (length (ext (ext vd ys) zs)) 1000); [lia|reflexivity].
  Qed.
  Theorem conv_ok t : conv_good t.
  Proof.
    induction t as [a|f ts IH|ts IH] using wterm_ind'; intros xs vd P V B.
    - inversion V as [a' VA|a' NV| |]; subst.
      + inversion P as [a' VA' NE|a' v NV C| |]; subst; [|easy]. cbn [RdProof.conv]. rewrite (var_prim a vd VA NE).
        pose proof (read_var_ok vd (a_s1 a) B) as H. destruct (_ <=? 1000); auto.
        destruct H as (v & -> & H). exists v. split; auto. intros r A. rewrite (H r A). constructor; auto.
      + inversion P as [a' VA' NE|a' v NV' C| |]; subst; [easy|]. cbn [RdProof.conv]. rewrite (const_prim a v vd NV C).
        cbn [ext fold_left]. replace (length vd <=? 1000) with true by (symmetry; apply Nat.leb_le; auto).
        exists v. split; [reflexivity|]. intros r _. apply st_con; auto.
    - inversion V as [| |? ? ? M|]; subst. inversion P as [| |? v ? F FP|]; subst.
      rewrite conv_app, (function_prim f v vd F). cbn [bindr].
      pose proof (conv_all_good ts IH xs vd FP M B) as H. destruct (_ <=? 1000).
      + destruct H as (vs & -> & H). cbn [bindr]. eexists. split; [reflexivity|]. intros r A. constructor; auto.
      + rewrite H. reflexivity.
    - inversion V as [| | |? ? M]; subst. inversion P as [| | |? FP]; subst. apply list_good; auto.
  Qed.
End C.
