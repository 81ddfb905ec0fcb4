(** The plain text of a clause gives the clause. *)
From Coq Require Import String Ascii List ZArith Bool Lia.
From Verif Require Import Word64 PtModel PtSpec PtBase PtJson PtProof.
Import ListNotations.
Open Scope string_scope.
Open Scope Z_scope.
Open Scope list_scope.

(** * Quoted names *)
Lemma esc_inj (c : ascii) n : c <> BS -> ~ In BS n -> forall n' x y, ~ In BS n' -> esc c n ++ c :: x = esc c n' ++ c :: y -> n = n' /\ x = y.
Proof.
  intros Hc. unfold esc. induction n as [|a n IH]; intros B [|a' n'] x y B' E; cbn [flat_map app] in E.
  - injection E as ->. auto.
  - exfalso. destruct (Ascii.eqb a' c) eqn:Q; cbn [app] in E; injection E as E _; [congruence|].
    subst a'. rewrite Ascii.eqb_refl in Q. discriminate.
  - exfalso. destruct (Ascii.eqb a c) eqn:Q; cbn [app] in E; injection E as E _; [congruence|].
    subst a. rewrite Ascii.eqb_refl in Q. discriminate.
  - cbn [In] in B, B'. destruct (Ascii.eqb a c) eqn:Q, (Ascii.eqb a' c) eqn:Q'; cbn [app] in E.
    + injection E as -> E. destruct (IH ltac:(tauto) n' x y ltac:(tauto) E) as (-> & ->). auto.
    + exfalso. injection E as E _. apply B'. auto.
    + exfalso. injection E as E _. apply B. auto.
    + injection E as -> E. destruct (IH ltac:(tauto) n' x y ltac:(tauto) E) as (-> & ->). auto.
Qed.

(** * Bare words *)
Definition delim (a : ascii) : bool := existsb (Ascii.eqb a) (S_ "(),").
Definition bare (a : ascii) : bool := negb (delim a).
Definition quote (a : ascii) : bool := existsb (Ascii.eqb a) [SQ; DQ].
Definition ends (x : str) : Prop := match x with [] => False | a :: _ => delim a = true end.
Lemma ends_stops x : ends x -> stops bare x.
Proof. destruct x; cbn [ends stops]; [tauto|]. unfold bare. intros ->. reflexivity. Qed.

Section Plain.
Variables (fmt : Z -> str) (q : str -> option str) (D : Z -> Prop).
Hypothesis TA : told_apart fmt D.
Notation WL := (word_leaf fmt q D).
Notation WT := (word_term fmt q D).

(** The token of a value, as a field of a term (true) or of the atom of a fact. *)
Definition tk (b : bool) (v : val) : str := if b then tx_leaf fmt Plain v else tx_simple fmt Plain v false.

(** The three kinds of token. *)
Inductive shape (v : val) (s : str) : Prop :=
  | Sh_quoted c n : (c = SQ \/ c = DQ) -> s = c :: esc c n ++ [c] -> ~ In BS n ->
      (c = DQ -> v = VUri (Some (S_ "#")) n) ->
      (c = SQ -> exists p k, v = VUri p k /\ p = q k /\ (p = None /\ k = EMPTYSTRING /\ n = [] \/ k = n /\ n <> [] /\ k <> EMPTYSTRING)) -> shape v s
  | Sh_bare a r : s = a :: r -> all bare s -> quote a = false ->
      (match v with
       | VInt z => s = dec z
       | VDbl d => s = fmt d
       | VVar i => s = var_name Plain i
       | VUri p n => p = None /\ p = q n /\ is_digit a = false /\ capital a = false /\ a <> ch 45 /\
                     (s = n \/ exists o, In n (map S_ ["+"; "*"; "<"]) /\ op_name n = Some o /\ s = o)
       | _ => False
       end) -> shape v s.

Lemma num_bare a : numch a = true -> bare a = true /\ quote a = false /\ capital a = (Ascii.eqb a (ch 69)).
Proof.
  unfold numch, is_digit. intros H. apply orb_true_iff in H. rewrite !existsb_exists in H.
  destruct H as [(x & I & E)|(x & I & E)]; apply Ascii.eqb_eq in E; subst x; cbn in I;
    repeat (destruct I as [<-|I]; [repeat split; reflexivity|]); destruct I.
Qed.
Lemma number_bare s : number s -> exists a r, s = a :: r /\ all bare s /\ quote a = false /\ (is_digit a = true \/ a = ch 45).
Proof.
  intros H. pose proof (number_all s H) as A. destruct H as (sg & i & f & e & E & Hs & Hi & _).
  assert (F : exists a r, s = a :: r /\ (is_digit a = true \/ a = ch 45)).
  { destruct Hs as [->| ->]; [|cbn [app] in E; eauto]. destruct Hi as [->|((N & Di) & _)]; [cbn in E; eauto|].
    destruct i as [|a r]; [congruence|]. cbn [app] in E. exists a. eexists. split; [exact E|]. left. unfold all in Di. cbn [forallb] in Di.
    apply andb_true_iff in Di. tauto. }
  destruct F as (a & r & -> & F). exists a, r. split; auto. split.
  - eapply all_impl; [|exact A]. intros x X. apply num_bare. exact X.
  - split; auto. unfold all in A. cbn [forallb] in A. apply andb_true_iff in A. apply num_bare. tauto.
Qed.
Lemma digit_bare s : all is_digit s -> all bare s.
Proof. apply all_impl. intros a H. apply num_bare. apply digit_numch. exact H. Qed.
Lemma var_plain i : 0 <= i < 1000 -> exists r, var_name Plain i = ch 88 :: r /\ r = dec i /\ all bare (var_name Plain i).
Proof.
  intros H. destruct (var_cases Plain i) as [(p & Ip & Fp & _)|(_ & ->)].
  - exfalso. repeat (destruct Ip as [<-|Ip]; [cbn in Fp; lia|]). destruct Ip.
  - rewrite w32_small by lia. eexists. split; [reflexivity|]. split; [reflexivity|]. apply (all_app bare (S_ "X")); [reflexivity|].
    unfold dec. assert (L : 1000 < 10 ^ Z.of_nat 10) by reflexivity. destruct (Z.ltb_spec i 0); [lia|].
    destruct (digits_val 10 i) as (A & _); [lia|discriminate|]. apply digit_bare. exact A.
Qed.
Lemma op_cases n o : op_name n = Some o -> ~ In n (map S_ ["-"; "/"]) -> In n (map S_ ["+"; "*"; "<"]) /\ In o (map S_ ["$sum"; "$product"; "$less"]).
Proof.
  unfold op_name. intros E N. cbn [map In] in *.
  repeat match type of E with context [str_eqb n ?x] => let Q := fresh in destruct (str_eqb n x) eqn:Q; [apply str_eqb_eq in Q; injection E as <-; subst n; tauto|clear Q] end.
  discriminate.
Qed.
Lemma code_delim a : delim a = true \/ quote a = true -> odd_char a = true /\ existsb (Ascii.eqb a) (S_ "=-+*/><") = false.
Proof.
  unfold delim, quote. rewrite !existsb_exists. intros [(x & I & E)|(x & I & E)]; apply Ascii.eqb_eq in E; subst x; cbn in I;
    repeat (destruct I as [<-|I]; [split; reflexivity|]); destruct I.
Qed.
Lemma bare_name n a r : n = a :: r -> contains SQ n = false -> should_quote n = false -> all bare n /\ quote a = false.
Proof.
  intros -> _ S. unfold should_quote in S.
  assert (X : forall c, In c (a :: r) -> delim c = false /\ quote c = false).
  { intros c I. destruct (delim c) eqn:Dc.
    - exfalso. destruct (code_delim c (or_introl Dc)) as (O & Q).
      destruct r as [|b r].
      + destruct I as [->|[]]. rewrite Q in S. cbn [existsb] in S. rewrite O in S. discriminate.
      + assert (T : existsb odd_char (a :: b :: r) = true) by (apply existsb_exists; eauto). rewrite T in S. discriminate.
    - split; auto. destruct (quote c) eqn:Qc; auto. exfalso. destruct (code_delim c (or_intror Qc)) as (O & Q).
      destruct r as [|b r].
      + destruct I as [->|[]]. rewrite Q in S. cbn [existsb] in S. rewrite O in S. discriminate.
      + assert (T : existsb odd_char (a :: b :: r) = true) by (apply existsb_exists; eauto). rewrite T in S. discriminate. }
  split; [|apply X; left; reflexivity]. unfold all. rewrite forallb_forall. intros c I. unfold bare. destruct (X c I) as (-> & _). reflexivity.
Qed.
Lemma not_minus n a r : n = a :: r -> should_quote n = false -> n <> S_ "-" -> a <> ch 45.
Proof.
  intros -> S N ->. unfold should_quote in S. destruct r as [|b r]; [apply N; reflexivity|]. discriminate S.
Qed.
Lemma tk_shape b v : WL v -> shape v (tk b v).
Proof.
  intros W. destruct v as [|z|d|s|p n|i|n]; cbn [word_leaf] in W; try tauto.
  - assert (E : tk b (VInt z) = dec z) by (destruct b; cbn; rewrite w32_small by exact W; reflexivity). rewrite E.
    destruct (number_bare (dec z) (proj1 (dec_ok z W))) as (a & r & Ea & A & Q & _). eapply Sh_bare; eauto.
  - assert (E : tk b (VDbl d) = fmt d) by (destruct b; reflexivity). rewrite E. destruct W as (_ & W & _).
    destruct (number_bare _ W) as (a & r & Ea & A & Q & _). eapply Sh_bare; eauto.
  - destruct W as (N & B & Q1 & Q2 & P & QP & F & O & PO).
    assert (OP : forall o, b = true -> op_name n = Some o -> shape (VUri p n) (tk b (VUri p n))).
    { intros o -> Eo. unfold tk, tx_leaf. rewrite Eo. destruct (op_cases n o Eo) as (In1 & In2).
      { intros X. apply O. cbn [map In] in *. tauto. }
      destruct p as [p|]; [exfalso; exact (proj1 (PO ltac:(discriminate)) In1)|].
      destruct QP as [QP|(QP & _)]; [discriminate|].
      assert (Z : exists r, o = ch 36 :: r /\ all bare o) by (cbn [map In] in In2; repeat (destruct In2 as [<-|In2]; [eexists; split; reflexivity|]); destruct In2).
      destruct Z as (r & -> & A). eapply Sh_bare; [reflexivity|exact A|reflexivity|]. cbn beta iota.
      split; [reflexivity|]. split; [exact QP|]. split; [reflexivity|]. split; [reflexivity|]. split; [discriminate|].
      right. eexists. split; [exact In1|]. split; [exact Eo|reflexivity]. }
    assert (SI : shape (VUri p n) (tx_simple fmt Plain (VUri p n) false)).
    { destruct p as [p|]; cbn [tx_simple app].
      - unfold quoted2, is_hash. destruct QP as [QP|(QP & DQp)].
        + injection QP as ->. change (str_eqb (S_ "#") (S_ "#")) with true. cbn iota.
          eapply Sh_quoted; [right; reflexivity|reflexivity|exact B|reflexivity|discriminate].
        + rewrite <- QP in DQp. cbn [distinct_pre] in DQp. rewrite DQp.
          eapply Sh_quoted; [left; reflexivity|reflexivity|exact B|discriminate|].
          intros _. exists (Some p), n. split; [reflexivity|]. split; [exact QP|]. right. split; [reflexivity|]. split; [exact N|].
          exact (proj2 (PO ltac:(discriminate))).
      - destruct QP as [QP|(QP & _)]; [discriminate|]. destruct (str_eqb n EMPTYSTRING) eqn:E.
        + apply str_eqb_eq in E. eapply (Sh_quoted _ _ SQ []); [left; reflexivity|reflexivity|intros []|discriminate|].
          intros _. exists None, n. split; [reflexivity|]. split; [exact QP|]. left. auto.
        + assert (NE : n <> EMPTYSTRING) by (intros X; apply str_eqb_eq in X; congruence).
          assert (G : forall X, X = SQ :: esc SQ n ++ [SQ] -> shape (VUri None n) X).
          { intros X ->. eapply Sh_quoted; [left; reflexivity|reflexivity|exact B|discriminate|].
            intros _. exists None, n. split; [reflexivity|]. split; [exact QP|]. right. auto. }
          destruct (contains SQ n) eqn:C; [apply G; reflexivity|]. destruct (should_quote n) eqn:S.
          * apply G. rewrite (no_contains _ _ C). reflexivity.
          * destruct n as [|a r]; [congruence|]. destruct (bare_name _ a r eq_refl C S) as (A & Qa).
            destruct (F eq_refl a r eq_refl) as (F1 & F2).
            eapply Sh_bare; [reflexivity|exact A|exact Qa|]. cbn beta iota. split; [reflexivity|]. split; [exact QP|]. split; [exact F1|]. split; [exact F2|].
            split; [|left; reflexivity]. eapply not_minus; [reflexivity|exact S|]. intros X. apply O. rewrite X. cbn [map In]. tauto. }
    destruct b; [|exact SI]. unfold tk in *. destruct (op_name n) as [o|] eqn:Eo; [apply (OP o); reflexivity|].
    unfold tx_leaf. rewrite Eo. exact SI.
  - assert (E : tk b (VVar i) = var_name Plain i) by (destruct b; reflexivity). rewrite E.
    destruct (var_plain i W) as (r & Er & _ & A). eapply Sh_bare; eauto.
Qed.

Lemma first_quote c n a r : (c = SQ \/ c = DQ) -> c :: esc c n ++ [c] = a :: r -> quote a = false -> False.
Proof. intros [-> | ->] E Q; injection E as <- _; discriminate. Qed.
Lemma digit_kinds a : is_digit a = true \/ a = ch 45 -> capital a = false.
Proof.
  intros [H| ->]; [|reflexivity]. destruct (num_bare a (digit_numch a H)) as (_ & _ & ->).
  destruct (Ascii.eqb a (ch 69)) eqn:E; [apply Ascii.eqb_eq in E; subst a; discriminate|reflexivity].
Qed.
Lemma op_not_name n : forall o k, op_name n = Some o -> In n (map S_ ["+"; "*"; "<"]) -> ~ In k (map S_ ["$sum"; "$product"; "$difference"; "$quotient"; "$less"; "-"; "/"]) -> o <> k.
Proof.
  intros o k E I N ->. cbn [map In] in I. apply N. cbn [map In].
  repeat (destruct I as [<-|I]; [vm_compute in E; injection E as <-; vm_compute; tauto|]). destruct I.
Qed.
Lemma op_inj n n' o : op_name n = Some o -> In n (map S_ ["+"; "*"; "<"]) -> op_name n' = Some o -> In n' (map S_ ["+"; "*"; "<"]) -> n = n'.
Proof.
  intros E I E' I'. cbn [map In] in I, I'.
  repeat (destruct I as [<-|I]; [repeat (destruct I' as [<-|I']; [vm_compute in E, E'; congruence || reflexivity|]); destruct I'|]). destruct I.
Qed.

Definition says (v : val) (s : str) (a : ascii) : Prop :=
  match v with
  | VInt z => s = dec z
  | VDbl d => s = fmt d
  | VVar i => s = var_name Plain i
  | VUri p n => p = None /\ p = q n /\ is_digit a = false /\ capital a = false /\ a <> ch 45 /\
                (s = n \/ exists o, In n (map S_ ["+"; "*"; "<"]) /\ op_name n = Some o /\ s = o)
  | _ => False
  end.
(** The first character of a bare word tells its kind. *)
Definition cls (v : val) : nat := match v with VInt _ | VDbl _ => 0 | VVar _ => 1 | _ => 2 end.
Definition cls_char (a : ascii) : nat := if is_digit a || Ascii.eqb a (ch 45) then 0 else if capital a then 1 else 2.
Lemma cls_of v a r : WL v -> says v (a :: r) a -> cls v = cls_char a.
Proof.
  intros W K. unfold cls_char. destruct v as [|z|d|s|p n|i|n]; cbn [says cls] in *; try contradiction.
  - destruct (number_bare _ (proj1 (dec_ok z W))) as (a2 & r2 & Ea2 & _ & _ & F). rewrite <- K in Ea2. injection Ea2 as <- <-.
    destruct F as [-> | ->]; reflexivity.
  - destruct W as (_ & W & _). destruct (number_bare _ W) as (a2 & r2 & Ea2 & _ & _ & F). rewrite <- K in Ea2. injection Ea2 as <- <-.
    destruct F as [-> | ->]; reflexivity.
  - destruct K as (_ & _ & Da & Ca & Na & _). rewrite Da, Ca. destruct (Ascii.eqb a (ch 45)) eqn:E; [apply Ascii.eqb_eq in E; congruence|reflexivity].
  - destruct (var_plain i W) as (r2 & Er & _ & _). rewrite <- K in Er. injection Er as -> _. reflexivity.
Qed.
Lemma says_inj v v' s a : WL v -> WL v' -> cls v = cls v' -> says v s a -> says v' s a -> v = v'.
Proof.
  destruct TA as (T1 & T2). intros W W' C K K'.
  destruct v as [|z|d|w|p n|i|n]; cbn [says] in K; try contradiction; destruct v' as [|z'|d'|w'|p' n'|i'|n']; cbn [says] in K'; try contradiction; try discriminate C.
  - f_equal. apply dec_inj; auto; congruence.
  - exfalso. destruct (dec_ok z W) as (_ & _ & X). apply X. rewrite <- K, K'. apply T2. apply W'.
  - exfalso. destruct (dec_ok z' W') as (_ & _ & X). apply X. rewrite <- K', K. apply T2. apply W.
  - f_equal. apply T1; [apply W|apply W'|congruence].
  - destruct K as (-> & _ & _ & _ & _ & K), K' as (-> & _ & _ & _ & _ & K'). f_equal.
    destruct W as (_ & _ & _ & _ & _ & _ & _ & O & _), W' as (_ & _ & _ & _ & _ & _ & _ & O' & _).
    destruct K as [->|(o & I & E & ->)], K' as [K'|(o' & I' & E' & K')].
    + exact K'.
    + exfalso. exact (op_not_name n' o' n E' I' O (eq_sym K')).
    + exfalso. exact (op_not_name n o n' E I O' K').
    + subst o'. eapply op_inj; eassumption.
  - f_equal. destruct (var_plain i W) as (r & Er & Hr & _), (var_plain i' W') as (r' & Er' & Hr' & _).
    cbn [word_leaf] in W, W'. apply dec_inj; [lia|lia|]. congruence.
Qed.
Lemma tk_inj b b' v v' x y : WL v -> WL v' -> ends x -> ends y -> tk b v ++ x = tk b' v' ++ y -> v = v' /\ x = y.
Proof.
  intros W W' Ex Ey E. destruct (tk_shape b v W) as [c n Hc Es B HD HS|a r Es A Q K], (tk_shape b' v' W') as [c' n' Hc' Es' B' HD' HS'|a' r' Es' A' Q' K'].
  - rewrite Es, Es' in E. cbn [app] in E. injection E as <- E. rewrite <- !app_assoc in E. cbn [app] in E.
    assert (NB : c <> BS) by (destruct Hc; subst; discriminate).
    destruct (esc_inj c n NB B n' x y B' E) as (<- & ->). split; [|reflexivity].
    destruct Hc as [-> | ->].
    + destruct (HS eq_refl) as (p & k & -> & -> & H), (HS' eq_refl) as (p' & k' & -> & -> & H').
      destruct H as [(Hp & Hk & Hn)|(Hk & Hn & Hk')], H' as [(Gp & Gk & Gn)|(Gk & Gn & Gk')]; subst; try congruence; reflexivity.
    + rewrite (HD eq_refl), (HD' eq_refl). reflexivity.
  - exfalso. rewrite Es, Es' in E. cbn [app] in E. injection E as <- E. destruct Hc; subst c; discriminate Q'.
  - exfalso. rewrite Es, Es' in E. cbn [app] in E. injection E as -> E. destruct Hc'; subst c'; discriminate Q.
  - apply (span_eq bare) in E; auto using ends_stops. destruct E as (E & ->). split; [|reflexivity].
    rewrite <- E in K', A', Es'. rewrite Es in Es'. injection Es' as <- <-.
    change (says v (tk b v) a) in K. change (says v' (tk b v) a) in K'. rewrite Es in K, K'.
    eapply says_inj; try eassumption. rewrite (cls_of v a r W K). symmetry. apply (cls_of v' a r W' K').
Qed.

(** * Terms *)
Definition field (b : bool) (f : tm) : str := match f with Rec _ => tx_term fmt Plain f | Leaf v => tk b v end.
(** Arguments, separated by commas and closed. *)
Fixpoint args (b : bool) (l : list tm) : str :=
  match l with
  | [] => S_ ")"
  | [f] => field b f ++ S_ ")"
  | f :: r => field b f ++ S_ "," ++ args b r
  end.
Lemma args_cons b f g r : args b (f :: g :: r) = field b f ++ S_ "," ++ args b (g :: r).
Proof. reflexivity. Qed.
Lemma t_fields_2 k f r : (2 <= k)%nat -> tx_fields fmt Plain k (f :: r) = S_ "," ++ tx_fields fmt Plain 1 (f :: r).
Proof.
  revert k f. induction r as [|g r IH]; intros k f Hk.
  - destruct k as [|[|k]]; try lia. reflexivity.
  - destruct k as [|[|k]]; try lia.
    change (tx_fields fmt Plain (S (S k)) (f :: g :: r)) with (S_ "," ++ field true f ++ tx_fields fmt Plain (S (S (S k))) (g :: r)).
    change (tx_fields fmt Plain 1 (f :: g :: r)) with (field true f ++ tx_fields fmt Plain 2 (g :: r)).
    rewrite (IH (S (S (S k)))), (IH 2%nat) by lia. reflexivity.
Qed.
Lemma t_args l : tx_fields fmt Plain 1 l ++ S_ ")" = args true l.
Proof.
  induction l as [|f r IH]; [reflexivity|]. destruct r as [|g r].
  - change (tx_fields fmt Plain 1 [f]) with (field true f ++ []). rewrite app_nil_r. reflexivity.
  - change (tx_fields fmt Plain 1 (f :: g :: r)) with (field true f ++ tx_fields fmt Plain 2 (g :: r)).
    rewrite t_fields_2 by lia. rewrite args_cons, <- IH, !app_assoc. reflexivity.
Qed.
Lemma rec_text h l : tx_term fmt Plain (Rec (Leaf h :: l)) = tk true h ++ S_ "(" ++ args true l.
Proof. rewrite tx_rec, <- t_args. change (tx_fields fmt Plain 0 (Leaf h :: l)) with (tk true h ++ S_ "(" ++ tx_fields fmt Plain 1 l). cbn [app]. rewrite <- !app_assoc. reflexivity. Qed.
Lemma a_fields_S k f r : tx_afields fmt Plain false (S k) (f :: r) = comma (S k) ++ field false f ++ tx_afields fmt Plain false (S (S k)) r.
Proof. destruct f; reflexivity. Qed.
Lemma a_fields_2 k f r : (2 <= k)%nat -> tx_afields fmt Plain false k (f :: r) = S_ "," ++ tx_afields fmt Plain false 1 (f :: r).
Proof.
  revert k f. induction r as [|g r IH]; intros k f Hk; destruct k as [|[|k]]; try lia; rewrite (a_fields_S (S k)), (a_fields_S 0); [reflexivity|].
  rewrite (IH (S (S (S k)))), (IH 2%nat) by lia. reflexivity.
Qed.
Lemma a_args l : tx_afields fmt Plain false 1 l ++ S_ ")" = args false l.
Proof.
  induction l as [|f r IH]; [reflexivity|]. rewrite a_fields_S. destruct r as [|g r].
  - change (tx_afields fmt Plain false 2 []) with (@nil ascii). rewrite app_nil_r. reflexivity.
  - rewrite a_fields_2 by lia. rewrite args_cons, <- IH. cbn [comma Nat.ltb Nat.leb app]. rewrite !app_assoc. reflexivity.
Qed.
Lemma atom_text p n l : tx_atom fmt Plain (Leaf (VUri p n) :: l) false = tk false (VUri p n) ++ S_ "(" ++ args false l.
Proof.
  unfold tx_atom. rewrite <- a_args. cbn [tx_afields comma aopening Nat.ltb Nat.leb Nat.eqb app andb]. rewrite <- !app_assoc. reflexivity.
Qed.

(** What may follow an argument. *)
Definition after (x : str) : Prop := exists r, x = ch 44 :: r \/ x = ch 41 :: r.
Lemma after_ends x : after x -> ends x.
Proof. intros (r & [-> | ->]); reflexivity. Qed.
Lemma ends_open x : ends (S_ "(" ++ x).
Proof. reflexivity. Qed.
Lemma open_not_after (x : str) : after (ch 40 :: x) -> False.
Proof. intros (r & [E|E]); discriminate E. Qed.
Definition FI (t : tm) : Prop := forall b b' t' x y, WT t -> WT t' -> after x -> after y -> field b t ++ x = field b' t' ++ y -> t = t' /\ x = y.
Lemma field_first b t : WT t -> exists a r, field b t = a :: r /\ delim a = false.
Proof.
  assert (L : forall b v, WL v -> exists a r, tk b v = a :: r /\ delim a = false).
  { intros b0 v W. destruct (tk_shape b0 v W) as [c n Hc Es B _ _|a r Es A Q K]; rewrite Es.
    - eexists. eexists. split; [reflexivity|]. destruct Hc; subst; reflexivity.
    - exists a, r. split; auto. rewrite Es in A. unfold all in A. cbn [forallb] in A. apply andb_true_iff in A. destruct A as (A & _).
      unfold bare in A. destruct (delim a); [discriminate|reflexivity]. }
  destruct t as [v|[|[h|] l]]; cbn [word_term]; try tauto; [apply L|].
  intros (W & _). cbn [field]. rewrite rec_text. destruct (L true h W) as (a & r & -> & Da). eexists. eexists. split; [reflexivity|exact Da].
Qed.
Lemma args_inj l : Forall FI l -> Forall WT l -> forall b b' l' x y, Forall WT l' -> args b l ++ x = args b' l' ++ y -> l = l' /\ x = y.
Proof.
  induction l as [|f r IH]; intros F W b b' [|f' r'] x y W' E.
  - injection E as ->. auto.
  - exfalso. inversion W' as [|? ? Wf _]; subst. destruct (field_first b' f' Wf) as (a & t & Ea & Da).
    destruct r'; [cbn [args] in E|rewrite args_cons in E]; rewrite Ea in E; injection E as <- _; discriminate.
  - exfalso. inversion W as [|? ? Wf _]; subst. destruct (field_first b f Wf) as (a & t & Ea & Da).
    destruct r; [cbn [args] in E|rewrite args_cons in E]; rewrite Ea in E; injection E as E _; rewrite E in Da; discriminate.
  - inversion F as [|? ? Ff Fr]; inversion W as [|? ? Wf Wr]; inversion W' as [|? ? Wf' Wr']; subst.
    destruct r as [|g r], r' as [|g' r']; rewrite ?args_cons in E; cbn [args] in E; rewrite <- !app_assoc in E; cbn [app S_ list_ascii_of_string] in E.
    + destruct (Ff b b' f' _ _ Wf Wf' ltac:(eexists; right; reflexivity) ltac:(eexists; right; reflexivity) E) as (-> & E'). injection E' as ->. auto.
    + exfalso. destruct (Ff b b' f' _ _ Wf Wf' ltac:(eexists; right; reflexivity) ltac:(eexists; left; reflexivity) E) as (_ & E'). discriminate E'.
    + exfalso. destruct (Ff b b' f' _ _ Wf Wf' ltac:(eexists; left; reflexivity) ltac:(eexists; right; reflexivity) E) as (_ & E'). discriminate E'.
    + destruct (Ff b b' f' _ _ Wf Wf' ltac:(eexists; left; reflexivity) ltac:(eexists; left; reflexivity) E) as (-> & E'). injection E' as E'.
      destruct (IH Fr Wr b b' (g' :: r') x y Wr' E') as (-> & ->). auto.
Qed.
Lemma every_word h l : WT (Rec (Leaf h :: l)) -> WL h /\ Forall WT l.
Proof. cbn [word_term]. intros (H & W). split; auto. induction l as [|f r IH]; constructor; tauto. Qed.
Lemma term_FI t : FI t.
Proof.
  induction t as [v|fs IH] using tm_ind'; intros b b' t' x y W W' Ax Ay E.
  - destruct t' as [v'|[|[h'|] l']]; cbn [field] in E; try (destruct W'; fail).
    + destruct (tk_inj b b' v v' x y W W' (after_ends _ Ax) (after_ends _ Ay) E) as (-> & ->). auto.
    + exfalso. rewrite rec_text, <- !app_assoc in E. apply every_word in W'. destruct W' as (Wh & _).
      destruct (tk_inj b true v h' x _ W Wh (after_ends _ Ax) (ends_open _) E) as (_ & ->). exact (open_not_after _ Ax).
  - destruct fs as [|[h|] l]; try (destruct W; fail). apply every_word in W. destruct W as (Wh & Wl).
    cbn [field] in E. rewrite rec_text, <- !app_assoc in E. destruct t' as [v'|[|[h'|] l']]; cbn [field] in E; try (destruct W'; fail).
    + exfalso. destruct (tk_inj true b' h v' _ y Wh W' (ends_open _) (after_ends _ Ay) E) as (_ & <-). exact (open_not_after _ Ay).
    + apply every_word in W'. destruct W' as (Wh' & Wl'). rewrite rec_text, <- !app_assoc in E.
      destruct (tk_inj true true h h' _ _ Wh Wh' (ends_open _) (ends_open _) E) as (-> & E'). injection E' as E'.
      inversion IH; subst. destruct (args_inj l ltac:(assumption) Wl true true l' x y Wl' E') as (-> & ->). auto.
Qed.

(** * Clauses *)
Definition lt (b : bool) (l : bool * list tm) : str :=
  (if fst l then S_ "-" else []) ++
  match snd l with Leaf h :: r => tk b h ++ S_ "(" ++ args b r | _ => [] end.
Notation WA := (word_atom fmt q D).
Lemma word_first b p n : word q p n -> exists a r, tk b (VUri p n) = a :: r /\ a <> ch 45.
Proof.
  intros W. destruct (tk_shape b (VUri p n) W) as [c k Hc Es B _ _|a r Es A Q K]; rewrite Es.
  - eexists. eexists. split; [reflexivity|]. destruct Hc; subst; discriminate.
  - exists a, r. split; [reflexivity|]. apply K.
Qed.
Lemma lt_inj b b' l l' x y : WA (snd l) -> WA (snd l') -> lt b l ++ x = lt b' l' ++ y -> l = l' /\ x = y.
Proof.
  destruct l as [g fs], l' as [g' fs']. cbn [snd]. intros W W'.
  destruct fs as [|[[| | | |p n| |]|] r]; try (destruct W; fail). destruct fs' as [|[[| | | |p' n'| |]|] r']; try (destruct W'; fail).
  destruct W as (Wn & Wr), W' as (Wn' & Wr'). unfold lt. cbn [fst snd]. rewrite <- !app_assoc. intros E.
  assert (S : g = g').
  { destruct (word_first b p n Wn) as (a & t & Ea & Na), (word_first b' p' n' Wn') as (a' & t' & Ea' & Na'). rewrite Ea, Ea' in E.
    destruct g, g'; auto; exfalso; cbn [app S_ list_ascii_of_string] in E; injection E as E _; [apply Na'; rewrite <- E; reflexivity|apply Na; rewrite E; reflexivity]. }
  subst g'. apply app_inv_head in E.
  destruct (tk_inj b b' (VUri p n) (VUri p' n') _ _ Wn Wn' (ends_open _) (ends_open _) E) as (Ev & E'). injection Ev as -> ->.
  injection E' as E'. assert (F : Forall FI r) by (apply Forall_forall; intros; apply term_FI).
  destruct (args_inj r F Wr b b' r' x y Wr' E') as (-> & ->). auto.
Qed.
Fixpoint rest (b : bool) (l : list (bool * list tm)) : str :=
  match l with [] => S_ "." | p :: r => S_ " | " ++ lt b p ++ rest b r end.
Lemma rest_inj b b' l : forall l', Forall (fun p => WA (snd p)) l -> Forall (fun p => WA (snd p)) l' -> rest b l = rest b' l' -> l = l'.
Proof.
  induction l as [|p r IH]; intros [|p' r'] W W' E; auto; try discriminate E.
  inversion W; inversion W'; subst. cbn [rest] in E. apply app_inv_head in E.
  destruct (lt_inj b b' p p' _ _ ltac:(assumption) ltac:(assumption) E) as (-> & E'). f_equal. apply IH; assumption.
Qed.
Definition whole (b : bool) (l : list (bool * list tm)) : str := match l with [] => S_ "." | p :: r => lt b p ++ rest b r end.
Lemma lt_open b p : WA (snd p) -> exists u w, lt b p = u ++ S_ "(" ++ w.
Proof.
  destruct p as [g [|[[| | | |p n| |]|] r]]; try (intros W; destruct W; fail). intros _. unfold lt. cbn [fst snd].
  eexists. eexists. rewrite app_assoc. reflexivity.
Qed.
Lemma whole_inj b b' l l' : Forall (fun p => WA (snd p)) l -> Forall (fun p => WA (snd p)) l' -> whole b l = whole b' l' -> l = l'.
Proof.
  assert (O : forall b p r, WA (snd p) -> lt b p ++ rest b r <> S_ ".").
  { intros b0 p r W E. destruct (lt_open b0 p W) as (u & w & Eu). rewrite Eu, <- !app_assoc in E.
    assert (I : In (ch 40) (S_ ".")) by (rewrite <- E; apply in_or_app; right; left; reflexivity). destruct I as [I|[]]. discriminate I. }
  destruct l as [|p r], l' as [|p' r']; cbn [whole]; intros W W' E; auto; inversion W; inversion W'; subst.
  - exfalso. eapply O; [|symmetry; exact E]. assumption.
  - exfalso. eapply O; [|exact E]. assumption.
  - destruct (lt_inj b b' p p' _ _ ltac:(assumption) ltac:(assumption) E) as (-> & E'). f_equal. eapply rest_inj; eassumption.
Qed.
Lemma whole_not_false b l : Forall (fun p => WA (snd p)) l -> whole b l <> S_ "false".
Proof.
  destruct l as [|p r]; [discriminate|]. intros W E. inversion W; subst. destruct (lt_open b p ltac:(assumption)) as (u & w & Eu).
  cbn [whole] in E. rewrite Eu, <- !app_assoc in E.
  assert (I : In (ch 40) (S_ "false")) by (rewrite <- E; apply in_or_app; right; left; reflexivity).
  repeat (destruct I as [I|I]; [discriminate I|]). destruct I.
Qed.
Lemma lits_rest l : Forall (fun p => match snd p with Rec fs => WA fs | Leaf _ => False end) l -> forall i,
  tx_lits fmt Plain (S i) l ++ S_ "." = rest true (literals (Rule l)) /\ tx_lits fmt Plain 0 l ++ S_ "." = whole true (literals (Rule l)).
Proof.
  induction l as [|[g t] r IH]; intros W i; [split; reflexivity|]. inversion W as [|? ? Wt Wr]; subst. cbn [snd] in Wt.
  destruct t as [|fs]; [destruct Wt|]. destruct fs as [|[[| | | |p n| |]|] a]; try (destruct Wt; fail).
  assert (T : tx_term fmt Plain (Rec (Leaf (VUri p n) :: a)) = tk true (VUri p n) ++ S_ "(" ++ args true a) by apply rec_text.
  destruct (IH Wr 0%nat) as (R0 & _). destruct (IH Wr (S i)) as (R & _).
  cbn [tx_lits]. rewrite T. cbn [Nat.ltb Nat.leb literals map rest whole fst snd fields]. unfold lt. cbn [fst snd]. unfold literals in R0, R.
  split; [rewrite <- R|rewrite <- R0]; rewrite <- ?app_assoc; reflexivity.
Qed.
Lemma plain_text c : word_clause fmt q D (Some c) -> exists b, tx_clause fmt Plain (Some c) = whole b (literals c) /\ Forall (fun p => WA (snd p)) (literals c).
Proof.
  destruct c as [l|fs]; cbn [word_clause tx_clause literals]; intros W.
  - exists true. split; [apply (lits_rest l W 0%nat)|]. induction W as [|[g [|fs]] r V VR IH]; cbn [map]; constructor; auto. destruct V.
  - exists false. split; [|constructor; [exact W|constructor]]. destruct fs as [|[[| | | |p n| |]|] a]; try (destruct W; fail).
    rewrite atom_text. reflexivity.
Qed.
Lemma plain_inj c c' : word_clause fmt q D c -> word_clause fmt q D c' -> tx_clause fmt Plain c = tx_clause fmt Plain c' ->
  option_map literals c = option_map literals c'.
Proof.
  intros W W' E. destruct c as [c|], c' as [c'|]; auto.
  - destruct (plain_text c W) as (b & Eb & F), (plain_text c' W') as (b' & Eb' & F'). rewrite Eb, Eb' in E.
    cbn [option_map]. f_equal. eapply whole_inj; eassumption.
  - exfalso. destruct (plain_text c W) as (b & Eb & F). rewrite Eb in E. exact (whole_not_false _ _ F E).
  - exfalso. destruct (plain_text c' W') as (b & Eb & F). rewrite Eb in E. exact (whole_not_false _ _ F (eq_sym E)).
Qed.

(** What the words need of the buffer. *)
Lemma word_fits_leaf v : WL v -> fits fmt Plain v.
Proof. destruct v as [| | | |p n| |]; cbn [word_leaf fits]; try tauto. intros (_ & _ & S & Q & P & _). auto. Qed.
Lemma word_fits_op v : WL v -> fits_leaf fmt Plain v.
Proof.
  intros W. split; [apply word_fits_leaf; exact W|]. destruct v as [| | | |p n| |]; try exact Logic.I.
  destruct W as (_ & _ & _ & _ & _ & _ & _ & O & _). unfold op_name. cbn [map In] in O.
  repeat match goal with |- context [str_eqb n ?x] => let E := fresh in destruct (str_eqb n x) eqn:E; [apply str_eqb_eq in E; subst n; first [vm_compute; discriminate | exfalso; tauto]|clear E] end.
  exact Logic.I.
Qed.
Lemma word_fits_term t : WT t -> fits_term fmt Plain t.
Proof.
  induction t as [v|fs IH] using tm_ind'; intros W; [apply word_fits_leaf; exact W|].
  destruct fs as [|[h|] l]; try (destruct W; fail). apply every_word in W. destruct W as (Wh & Wl).
  cbn [fits_term]. split; [apply word_fits_op; exact Wh|]. inversion IH as [|? ? _ IHl]; subst. clear IH.
  induction l as [|f r IHr]; [exact Logic.I|]. inversion Wl; inversion IHl; subst. split; [|apply IHr; assumption].
  destruct f; [apply word_fits_op; assumption|auto].
Qed.
Lemma word_fits c : word_clause fmt q D c -> fits_clause fmt Plain c.
Proof.
  assert (A : forall fs, WA fs -> exists p n l, fs = Leaf (VUri p n) :: l /\ word q p n /\ Forall WT l).
  { intros [|[[| | | |p n| |]|] l] W; try (destruct W; fail). destruct W. eauto 8. }
  destruct c as [[l|fs]|]; cbn [word_clause fits_clause]; auto.
  - intros H. eapply Forall_impl; [|exact H]. intros [g [v|fs]]; cbn [snd]; [tauto|]. intros W.
    destruct (A fs W) as (p & n & r & -> & Wn & Wr). apply word_fits_term. cbn [word_term]. split; [exact Wn|].
    clear - Wr. induction Wr; auto.
  - intros W. destruct (A fs W) as (p & n & r & -> & Wn & Wr). constructor; [exact (word_fits_leaf (VUri p n) Wn)|].
    eapply Forall_impl; [|exact Wr]. intros t Wt. destruct t; [apply word_fits_leaf; exact Wt|apply word_fits_term; exact Wt].
Qed.
End Plain.
