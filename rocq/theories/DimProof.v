(** Proofs about the solver's file and answer, and the processes. *)
From Coq Require Import String Ascii List ZArith Bool Lia.
From Verif Require Import Word64 PtModel PpSpec DimModel.
Import ListNotations.
Open Scope Z_scope.
Open Scope list_scope.

Definition plain (s : str) : Prop := forall c, In c s -> c <> NL.

Lemma lines_nonempty : forall s, exists l ls, lines s = l :: ls.
Proof.
  induction s as [|c s (l & ls & E)]; [exists nil, nil; reflexivity|]. simpl. destruct (ascii_dec c newline).
  - exists nil, (lines s). reflexivity.
  - rewrite E. exists (c :: l), ls. reflexivity.
Qed.
Lemma lines_plain : forall a b l ls, plain a -> lines b = l :: ls -> lines (a ++ b) = (a ++ l) :: ls.
Proof.
  induction a as [|c a IH]; intros b l ls P E; [exact E|]. cbn [List.app lines].
  destruct (ascii_dec c newline) as [X|X]; [exfalso; exact (P c (or_introl eq_refl) X)|].
  rewrite (IH b l ls); [reflexivity| |exact E]. intros d D. apply P. right. exact D.
Qed.
Lemma lines_line : forall a b, plain a -> lines (a ++ NL :: b) = a :: lines b.
Proof.
  intros a b P. rewrite (lines_plain a (NL :: b) nil (lines b) P); [rewrite app_nil_r; reflexivity|reflexivity].
Qed.

(** * The answer *)
Lemma prefix_of_iff : forall p s, prefix_of p s = true <-> exists y, s = p ++ y.
Proof.
  induction p as [|a p IH]; intros s; simpl.
  - split; [intros _; exists s; reflexivity|reflexivity].
  - destruct s as [|b s]; [split; [discriminate|intros (y & E); discriminate E]|].
    destruct (ascii_dec a b) as [->|N].
    + rewrite IH. split; intros (y & E); exists y; congruence.
    + split; [discriminate|]. intros (y & E). injection E as E _. congruence.
Qed.
Lemma contains_iff : forall p s, contains p s = true <-> exists x y, s = x ++ p ++ y.
Proof.
  intros p. induction s as [|c s IH].
  - simpl. rewrite orb_false_r, prefix_of_iff. split.
    + intros (y & E). exists nil, y. exact E.
    + intros (x & y & E). destruct x; [exists y; exact E|discriminate E].
  - cbn [contains]. rewrite orb_true_iff, prefix_of_iff, IH. split.
    + intros [(y & E)|(x & y & E)]; [exists nil, y; exact E|exists (c :: x), y; rewrite E; reflexivity].
    + intros (x & y & E). destruct x as [|d x]; [left; exists y; exact E|]. right. injection E as _ E. exists x, y. exact E.
Qed.

Lemma fgets_spec : forall n s a b, fgets_loop n s = (a, b) ->
  (exists a', plain a' /\ a = a' ++ [NL] /\ s = a' ++ NL :: b) \/
  (plain a /\ s = a ++ b /\ (b = nil \/ length a = n)).
Proof.
  induction n as [|n IH]; intros s a b H.
  - injection H as <- <-. right. split; [intros c []|]. split; [reflexivity|right; reflexivity].
  - destruct s as [|c s].
    + injection H as <- <-. right. split; [intros c []|]. split; [reflexivity|left; reflexivity].
    + cbn [fgets_loop] in H. destruct (ascii_dec c NL) as [->|N].
      * injection H as <- <-. left. exists nil. split; [intros c []|]. split; reflexivity.
      * destruct (fgets_loop n s) as [u v] eqn:F. injection H as <- <-.
        destruct (IH s u v F) as [(a' & P & E & Q)|(P & E & Q)].
        -- left. exists (c :: a'). split; [intros d [->|D]; [exact N|exact (P d D)]|]. rewrite E, Q. split; reflexivity.
        -- right. split; [intros d [->|D]; [exact N|exact (P d D)]|]. rewrite E. split; [reflexivity|].
           destruct Q as [Q|Q]; [left; exact Q|right; simpl; rewrite Q; reflexivity].
Qed.

Lemma provedstr_plain : plain provedstr.
Proof. intros c I E. subst c. vm_compute in I. repeat (destruct I as [I|I]; [discriminate I|]). exact I. Qed.

Lemma proved_sound : forall f s, proved_loop f s = true ->
  exists l x y, In l (lines s) /\ l = x ++ provedstr ++ y.
Proof.
  induction f as [|f IH]; intros s H; [discriminate|]. destruct s as [|c s]; [discriminate|].
  remember (c :: s) as t eqn:T. cbn [proved_loop] in H. rewrite T in H at 1. clear T c s.
  destruct (fgets_loop 899 t) as [a b] eqn:F. destruct (fgets_spec 899 t a b F) as [(a' & P & E & Q)|(P & E & _)].
  - rewrite Q, (lines_line a' b P). apply orb_true_iff in H. destruct H as [H|H].
    + apply contains_iff in H. destruct H as (x & y & X). rewrite E in X.
      destruct (rev y) as [|z r] eqn:R.
      * exfalso. apply (f_equal (@rev ascii)) in R. rewrite rev_involutive in R. subst y. rewrite app_nil_r in X.
        assert (L : last (a' ++ [NL]) "a"%char = last (x ++ provedstr) "a"%char) by (rewrite X; reflexivity).
        rewrite last_last in L. change provedstr with (S_ "s UNSATISFIABL" ++ ["E"%char]) in L.
        rewrite app_assoc, last_last in L. discriminate L.
      * apply (f_equal (@rev ascii)) in R. rewrite rev_involutive in R. simpl in R. subst y.
        rewrite !app_assoc in X. apply app_inj_tail in X. destruct X as (X & _). exists a', x, (rev r).
        split; [left; reflexivity|]. rewrite X, !app_assoc. reflexivity.
    + destruct (IH b H) as (l & x & y & I & X). exists l, x, y. split; [right; exact I|exact X].
  - destruct (lines_nonempty b) as (l & ls & L). rewrite E, (lines_plain a b l ls P L).
    apply orb_true_iff in H. destruct H as [H|H].
    + apply contains_iff in H. destruct H as (x & y & X). exists (a ++ l), x, (y ++ l). split; [left; reflexivity|].
      rewrite X, !app_assoc. reflexivity.
    + destruct (IH b H) as (m & x & y & I & X). rewrite L in I. destruct I as [I|I].
      * exists (a ++ l), (a ++ x), y. split; [left; reflexivity|]. rewrite I, X, !app_assoc. reflexivity.
      * exists m, x, y. split; [right; exact I|exact X].
Qed.

Lemma proved_complete : forall f s, (length s <= f)%nat -> In provedstr (lines s) -> proved_loop f s = true.
Proof.
  induction f as [|f IH]; intros s L I.
  - destruct s; [|simpl in L; lia]. destruct I as [I|[]]. discriminate I.
  - destruct s as [|c s]; [destruct I as [I|[]]; discriminate I|].
    remember (c :: s) as t eqn:T. assert (TN : t <> nil) by (rewrite T; discriminate).
    cbn [proved_loop]. rewrite T at 1. clear T c s. destruct (fgets_loop 899 t) as [a b] eqn:F.
    apply orb_true_iff. destruct (fgets_spec 899 t a b F) as [(a' & P & E & Q)|(P & E & Q)].
    + rewrite Q, (lines_line a' b P) in I. destruct I as [I|I].
      * left. apply contains_iff. exists nil, [NL]. rewrite E, I. reflexivity.
      * right. apply IH; [|exact I]. rewrite Q, app_length in L. simpl in L. lia.
    + destruct (lines_nonempty b) as (l & ls & LB). rewrite E, (lines_plain a b l ls P LB) in I. destruct I as [I|I].
      * left. apply contains_iff. destruct Q as [Q|Q].
        -- subst b. simpl in LB. injection LB as <- <-. rewrite app_nil_r in I. exists nil, nil. rewrite I. reflexivity.
        -- exfalso. apply (f_equal (@length ascii)) in I. rewrite app_length, Q in I. change (length provedstr) with 15%nat in I. lia.
      * right. apply IH.
        -- rewrite E, app_length in L. destruct a as [|x a]; [|simpl in L; lia].
           destruct Q as [Q|Q]; [|discriminate Q]. subst b. exfalso. apply TN. exact E.
        -- rewrite LB. right. exact I.
Qed.

(** * The file *)
Definition numeral (s : str) : Prop := s <> nil /\ forall c, In c s -> (48 <= Z.of_nat (nat_of_ascii c) <= 57) \/ c = ch 45.

Lemma digits_spec : forall f z, 0 <= z < 10 ^ Z.of_nat f -> f <> O ->
  natural 0 (digits f z) = Some z /\ digits f z <> nil /\ forall c, In c (digits f z) -> 48 <= Z.of_nat (nat_of_ascii c) <= 57.
Proof.
  assert (D : forall z, 0 <= z < 10 -> Z.of_nat (nat_of_ascii (digit z)) = 48 + z).
  { intros z H. unfold digit, ch. rewrite nat_ascii_embedding by lia. lia. }
  assert (N : forall s acc z, 0 <= z < 10 -> natural acc (s ++ [digit z]) = match natural acc s with Some v => Some (10 * v + z) | None => None end).
  { induction s as [|c s IH]; intros acc z H.
    - cbn [List.app natural]. unfold digit_of. rewrite (D z H). destruct (Z.leb_spec 48 (48 + z)); [|lia].
      destruct (Z.leb_spec (48 + z) 57); [|lia]. cbn [andb]. f_equal. lia.
    - cbn [List.app natural]. destruct (digit_of c); [apply IH; exact H|reflexivity]. }
  induction f as [|f IH]; intros z H NF; [congruence|]. cbn [digits]. destruct (Z.ltb_spec z 10) as [L|L].
  - split; [|split; [discriminate|]].
    + apply (N nil 0 z). lia.
    + intros c [<-|[]]. rewrite (D z); lia.
  - assert (NF' : f <> O).
    { intros ->. change (10 ^ Z.of_nat 1) with 10 in H. lia. }
    assert (R : 0 <= z / 10 < 10 ^ Z.of_nat f).
    { split; [apply Z.div_pos; lia|]. apply Z.div_lt_upper_bound; [lia|]. rewrite Nat2Z.inj_succ, Z.pow_succ_r in H by lia. lia. }
    destruct (IH (z / 10) R NF') as (A & B & C). pose proof (Z.mod_pos_bound z 10 ltac:(lia)) as M.
    pose proof (Z.div_mod z 10 ltac:(lia)) as DM.
    split; [|split].
    + rewrite N by exact M. rewrite A. f_equal. lia.
    + destruct (digits f (z / 10)); discriminate.
    + intros c I. apply in_app_or in I. destruct I as [I|[<-|[]]]; [exact (C c I)|]. rewrite (D _ M). lia.
Qed.

Lemma ld_spec : forall z, Z.abs z < 10 ^ 20 -> number (ld z) = Some z /\ numeral (ld z).
Proof.
  intros z H. unfold ld. destruct (Z.ltb_spec z 0) as [L|L].
  - destruct (digits_spec 20 (- z)) as (A & B & C); [change (Z.of_nat 20) with 20; lia|discriminate|]. split.
    + unfold number. destruct (ascii_dec (ch 45) "-"%char) as [_|X]; [|exfalso; apply X; reflexivity].
      destruct (digits 20 (- z)) eqn:E; [congruence|]. rewrite A. simpl. f_equal. lia.
    + split; [discriminate|]. intros c [<-|I]; [right; reflexivity|left; exact (C c I)].
  - destruct (digits_spec 20 z) as (A & B & C); [change (Z.of_nat 20) with 20; lia|discriminate|]. split.
    + unfold number. destruct (digits 20 z) as [|c r] eqn:E; [congruence|].
      destruct (ascii_dec c "-"%char) as [X|X]; [|exact A]. exfalso. specialize (C c (or_introl eq_refl)). subst c. vm_compute in C. destruct C as [C _]. apply C. reflexivity.
    + split; [exact B|]. intros c I. left. exact (C c I).
Qed.

Lemma numeral_char : forall s c, numeral s -> In c s -> c <> NL /\ blank_char c = false /\ c <> "c"%char.
Proof.
  intros s c (_ & H) I. specialize (H c I). split; [|split].
  - intros ->. destruct H as [H|H]; [vm_compute in H; destruct H as [H _]; apply H; reflexivity|discriminate H].
  - unfold blank_char. destruct (ascii_dec c " "%char) as [->|N]; [|reflexivity].
    destruct H as [H|H]; [vm_compute in H; destruct H as [H _]; exfalso; apply H; reflexivity|discriminate H].
  - intros ->. destruct H as [H|H]; [vm_compute in H; destruct H as [_ H]; apply H; reflexivity|discriminate H].
Qed.

(** Words. *)
Definition word (w : str) : Prop := w <> nil /\ forall c, In c w -> blank_char c = false.
Lemma words_word : forall w, word w -> words w = [w].
Proof.
  induction w as [|c w IH]; intros (N & H); [congruence|]. cbn [words]. rewrite (H c (or_introl eq_refl)).
  destruct w as [|d w]; [reflexivity|]. rewrite (H d) by (right; left; reflexivity).
  rewrite IH; [reflexivity|]. split; [discriminate|]. intros x X. apply H. right. exact X.
Qed.
Lemma words_more : forall w r, word w -> words (w ++ SP :: r) = w :: words r.
Proof.
  induction w as [|c w IH]; intros r (N & H); [congruence|]. cbn [List.app words]. rewrite (H c (or_introl eq_refl)).
  destruct w as [|d w].
  - cbn [List.app]. change (blank_char SP) with true. cbn [words]. change (blank_char SP) with true. reflexivity.
  - cbn [List.app]. rewrite (H d) by (right; left; reflexivity). change (d :: w ++ SP :: r) with ((d :: w) ++ SP :: r).
    rewrite IH; [reflexivity|]. split; [discriminate|]. intros x X. apply H. right. exact X.
Qed.
Lemma numeral_word : forall s, numeral s -> word s.
Proof. intros s H. split; [exact (proj1 H)|]. intros c I. exact (proj1 (proj2 (numeral_char s c H I))). Qed.

Lemma numbers_words : forall ls, (forall z, In z ls -> Z.abs z < 10 ^ 20) ->
  words (numbers ls ++ S_ " 0") = map ld ls ++ [S_ "0"].
Proof.
  induction ls as [|z ls IH]; intros H; [reflexivity|].
  destruct (ld_spec z (H z (or_introl eq_refl))) as (_ & N). pose proof (numeral_word _ N) as W.
  destruct ls as [|y ls].
  - cbn [numbers map List.app]. change (S_ " 0") with (SP :: S_ "0"). rewrite (words_more _ _ W). reflexivity.
  - change (numbers (z :: y :: ls)) with (ld z ++ SP :: numbers (y :: ls)). rewrite <- app_assoc. cbn [List.app].
    rewrite (words_more _ _ W), IH; [reflexivity|]. intros x X. apply H. right. exact X.
Qed.

Lemma numbers_plain : forall ls, (forall z, In z ls -> Z.abs z < 10 ^ 20) -> plain (numbers ls ++ S_ " 0") /\
  comment (numbers ls ++ S_ " 0") = false.
Proof.
  intros ls H.
  assert (A : forall c, In c (numbers ls) -> c = SP \/ exists z, Z.abs z < 10 ^ 20 /\ In c (ld z)).
  { induction ls as [|z ls IH]; [intros c []|]. intros c I. destruct ls as [|y ls].
    - right. exists z. split; [apply H; left; reflexivity|exact I].
    - change (numbers (z :: y :: ls)) with (ld z ++ SP :: numbers (y :: ls)) in I. apply in_app_or in I.
      destruct I as [I|[I|I]]; [right; exists z; split; [apply H; left; reflexivity|exact I]|left; auto|].
      apply IH; [intros x X; apply H; right; exact X|exact I]. }
  assert (B : forall c, In c (numbers ls ++ S_ " 0") -> c <> NL /\ c <> "c"%char).
  { intros c I. apply in_app_or in I. destruct I as [I|I].
    - destruct (A c I) as [->|(z & Z & J)]; [split; discriminate|].
      destruct (numeral_char _ c (proj2 (ld_spec z Z)) J) as (X & _ & Y). auto.
    - destruct I as [<-|[<-|[]]]; split; discriminate. }
  split; [intros c I; exact (proj1 (B c I))|].
  destruct (numbers ls ++ S_ " 0") as [|c r]; [reflexivity|]. simpl.
  destruct (ascii_dec c "c"%char) as [E|_]; [|reflexivity]. exfalso. exact (proj2 (B c (or_introl eq_refl)) E).
Qed.

Lemma all_numbers_app : forall a b x y, all_numbers a = Some x -> all_numbers b = Some y -> all_numbers (a ++ b) = Some (x ++ y).
Proof.
  induction a as [|w a IH]; intros b x y A B; [injection A as <-; exact B|]. cbn [List.app all_numbers] in *.
  destruct (number w) as [z|]; [|discriminate]. destruct (all_numbers a) as [l|]; [|discriminate]. injection A as <-.
  rewrite (IH b l y eq_refl B). reflexivity.
Qed.
Lemma all_numbers_ld : forall ls, (forall z, In z ls -> Z.abs z < 10 ^ 20) -> all_numbers (map ld ls) = Some ls.
Proof.
  induction ls as [|z ls IH]; intros H; [reflexivity|]. cbn [map all_numbers].
  rewrite (proj1 (ld_spec z (H z (or_introl eq_refl)))), IH; [reflexivity|]. intros x X. apply H. right. exact X.
Qed.
Lemma cut_clause : forall ls rest cs, (forall z, In z ls -> z <> 0) -> cut_at_0 rest = Some cs ->
  cut_at_0 (ls ++ 0 :: rest) = Some (ls :: cs).
Proof.
  induction ls as [|z ls IH]; intros rest cs H C; cbn [List.app cut_at_0].
  - rewrite C. reflexivity.
  - rewrite (IH rest cs); [|intros x X; apply H; right; exact X|exact C].
    destruct (Z.eqb_spec z 0) as [E|_]; [|reflexivity]. exfalso. exact (H z (or_introl eq_refl) E).
Qed.

Definition fair (cls : list (list Z)) : Prop := forall c z, In c cls -> In z c -> z <> 0 /\ Z.abs z < 10 ^ 20.

Lemma body_lines : forall cls, fair cls ->
  filter (fun l => negb (comment l)) (lines (concat (map clause_line cls))) = map (fun c => numbers c ++ S_ " 0") cls ++ [nil].
Proof.
  induction cls as [|c cls IH]; intros F; [reflexivity|]. cbn [map concat]. unfold clause_line at 1.
  destruct (numbers_plain c) as (P & C). { intros z Z. exact (proj2 (F c z (or_introl eq_refl) Z)). }
  replace ((numbers c ++ S_ " 0" ++ [NL]) ++ concat (map clause_line cls))
    with ((numbers c ++ S_ " 0") ++ NL :: concat (map clause_line cls)) by (rewrite !app_assoc, <- !app_assoc; reflexivity).
  rewrite (lines_line _ _ P). cbn [filter]. rewrite C. cbn [negb List.app]. f_equal. apply IH.
  intros d z D. apply F. right. exact D.
Qed.

Lemma body_numbers : forall cls, fair cls ->
  all_numbers (concat (map words (map (fun c => numbers c ++ S_ " 0") cls ++ [nil]))) = Some (concat (map (fun c => c ++ [0]) cls)).
Proof.
  induction cls as [|c cls IH]; intros F; [reflexivity|]. cbn [map List.app concat].
  rewrite (numbers_words c) by (intros z Z; exact (proj2 (F c z (or_introl eq_refl) Z))).
  apply all_numbers_app.
  - apply all_numbers_app; [apply all_numbers_ld; intros z Z; exact (proj2 (F c z (or_introl eq_refl) Z))|reflexivity].
  - apply IH. intros d z D. apply F. right. exact D.
Qed.
Lemma body_cut : forall cls, fair cls -> cut_at_0 (concat (map (fun c => c ++ [0]) cls)) = Some cls.
Proof.
  induction cls as [|c cls IH]; intros F; [reflexivity|]. cbn [map concat]. rewrite <- app_assoc. cbn [List.app].
  apply cut_clause; [intros z Z; exact (proj1 (F c z (or_introl eq_refl) Z))|]. apply IH. intros d z D. apply F. right. exact D.
Qed.

Lemma file_reads : forall v cls, fair cls -> 0 <= v < 2 ^ 31 -> Z.of_nat (length cls) < 2 ^ 31 ->
  read_dimacs (prop_file v cls) = Some (v, Z.of_nat (length cls), cls).
Proof.
  intros v cls F V N. unfold prop_file, read_dimacs. rewrite !w32_id by lia.
  assert (B : forall z, 0 <= z < 2 ^ 31 -> Z.abs z < 10 ^ 20) by (intros; lia).
  destruct (ld_spec v (B v V)) as (V1 & V2). destruct (ld_spec (Z.of_nat (length cls)) (B (Z.of_nat (length cls)) ltac:(lia))) as (N1 & N2).
  set (body := concat (map clause_line cls)) in *. set (sv := ld v) in *. set (sn := ld (Z.of_nat (length cls))) in *.
  change (S_ "c generated by gkc" ++ [NL] ++ S_ "p cnf " ++ sv ++ SP :: sn ++ [NL] ++ body)
    with (S_ "c generated by gkc" ++ NL :: (S_ "p cnf " ++ sv ++ SP :: sn ++ [NL] ++ body)).
  rewrite lines_line.
  2:{ intros c I E. subst c. vm_compute in I. repeat (destruct I as [I|I]; [discriminate I|]). exact I. }
  replace (S_ "p cnf " ++ sv ++ SP :: sn ++ [NL] ++ body) with ((S_ "p cnf " ++ sv ++ SP :: sn) ++ NL :: body)
    by (rewrite <- !app_assoc; cbn [List.app]; reflexivity).
  rewrite lines_line.
  2:{ intros c I. apply in_app_or in I. destruct I as [I|I].
      - intros ->. vm_compute in I. repeat (destruct I as [I|I]; [discriminate I|]). exact I.
      - apply in_app_or in I. destruct I as [I|[<-|I]]; [exact (proj1 (numeral_char _ c V2 I))|discriminate|exact (proj1 (numeral_char _ c N2 I))]. }
  cbn [filter]. change (comment (S_ "c generated by gkc")) with true. cbn [negb].
  change (comment (S_ "p cnf " ++ sv ++ SP :: sn)) with false. cbn [negb]. unfold body at 1. rewrite (body_lines cls F).
  change (S_ "p cnf " ++ sv ++ SP :: sn) with (S_ "p" ++ SP :: (S_ "cnf" ++ SP :: (sv ++ SP :: sn))).
  rewrite words_more by (split; [discriminate|intros c [<-|[]]; reflexivity]).
  rewrite words_more by (split; [discriminate|intros c [<-|[<-|[<-|[]]]]; reflexivity]).
  rewrite (words_more sv sn (numeral_word _ V2)), (words_word sn (numeral_word _ N2)).
  destruct (list_eq_dec ascii_dec (S_ "p") (list_ascii_of_string "p")) as [_|X]; [|exfalso; apply X; reflexivity].
  destruct (list_eq_dec ascii_dec (S_ "cnf") (list_ascii_of_string "cnf")) as [_|X]; [|exfalso; apply X; reflexivity].
  rewrite V1, N1, (body_numbers cls F), (body_cut cls F). reflexivity.
Qed.

(** * The processes *)
Section W.
Variable solver : option str -> str.
Variable text : nat -> str.

Lemma nth_put : forall l k j x s, nth_error (put k x l) j = Some s -> (j = k /\ s = x) \/ (j <> k /\ nth_error l j = Some s).
Proof.
  induction l as [|y l IH]; intros [|k] [|j] x s H; cbn [put nth_error] in H; try discriminate.
  - injection H as <-. left. auto.
  - right. split; [discriminate|exact H].
  - right. split; [discriminate|exact H].
  - destruct (IH k j x s H) as [(-> & ->)|(N & E)]; [left; auto|right]. split; [congruence|exact E].
Qed.

(** What the files hold. *)
Definition kept (n : nat) (w : world) : Prop :=
  (forall c, fin (disk w) = Some c -> exists j, (j < n)%nat /\ c = text j) /\
  (forall o, fout (disk w) = Some o -> o = solver None \/ exists j, (j < n)%nat /\ o = solver (Some (text j))) /\
  (forall k, nth_error (stages w) k = Some (Over 2) -> proved (solver None) = true \/ exists j, (j < n)%nat /\ proved (solver (Some (text j))) = true) /\
  length (stages w) = n.
Lemma put_length : forall l k x, length (put k x l) = length l.
Proof. induction l as [|y l IH]; intros [|k] x; try reflexivity. cbn [put length]. rewrite IH. reflexivity. Qed.

Lemma kept_reach : forall n w w', wreach solver text w w' -> kept n w -> kept n w'.
Proof.
  intros n w w' R. induction R as [|a b c R IH S]; [auto|]. intros K. specialize (IH K). clear K R.
  destruct S as [w k s d' s' N A]. destruct IH as (F & O & T & L). unfold kept. cbn [disk stages].
  assert (KL : (k < n)%nat). { rewrite <- L. apply nth_error_Some. congruence. }
  rewrite put_length.
  assert (T' : s' <> Over 2 -> forall j, nth_error (put k s' (stages w)) j = Some (Over 2) ->
    proved (solver None) = true \/ exists i, (i < n)%nat /\ proved (solver (Some (text i))) = true).
  { intros X j H. destruct (nth_put _ _ _ _ _ H) as [(_ & E)|(_ & E)]; [congruence|]. exact (T j E). }
  destruct s; cbn [act] in A.
  - injection A as <- <-. cbn [fin fout]. split; [intros c E; injection E as <-; exists k; auto|].
    split; [exact O|]. split; [apply T'; discriminate|exact L].
  - injection A as <- <-. cbn [fin fout]. split; [exact F|]. split; [|split; [apply T'; discriminate|exact L]].
    intros o E. injection E as <-. destruct (fin (disk w)) as [c|]; [|left; reflexivity].
    destruct (F c eq_refl) as (j & J & ->). right. exists j. auto.
  - destruct (fout (disk w)) as [o|] eqn:FO.
    + destruct (proved o) eqn:PO.
      * injection A as <- <-. rewrite FO. split; [exact F|]. split; [exact O|]. split; [|exact L]. intros j H.
        destruct (nth_put _ _ _ _ _ H) as [_|(_ & E)]; [|exact (T j E)].
        destruct (O o eq_refl) as [->|(i & I & ->)]; [left; exact PO|right; exists i; auto].
      * injection A as <- <-. rewrite FO. split; [exact F|]. split; [exact O|]. split; [apply T'; discriminate|exact L].
    + injection A as <- <-. rewrite FO. split; [exact F|]. split; [exact O|]. split; [apply T'; discriminate|exact L].
  - injection A as <- <-. cbn [fin fout]. split; [discriminate|]. split; [discriminate|]. split; [apply T'; discriminate|exact L].
  - discriminate.
Qed.

(** One process alone, whatever files it finds. *)
Definition solo (w : world) : Prop :=
  exists s, stages w = [s] /\
  match s with
  | AtWrite => True
  | AtSolve => fin (disk w) = Some (text 0)
  | AtRead => fout (disk w) = Some (solver (Some (text 0)))
  | AtRemove => proved (solver (Some (text 0))) = false
  | Over r => (r = 2 /\ proved (solver (Some (text 0))) = true) \/ (r = 0 /\ proved (solver (Some (text 0))) = false)
  end.
Lemma solo_reach : forall w w', wreach solver text w w' -> solo w -> solo w'.
Proof.
  intros w w' R. induction R as [|a b c R IH S]; [auto|]. intros K. specialize (IH K). clear K R.
  destruct S as [w k s d' s' N A]. destruct IH as (t & E & H). rewrite E in N |- *.
  destruct k as [|k]; [|destruct k; discriminate N]. injection N as ->. unfold solo. cbn [disk stages put].
  exists s'. split; [reflexivity|]. destruct s; cbn [act] in A.
  - injection A as <- <-. reflexivity.
  - injection A as <- <-. cbn [fout]. rewrite H. reflexivity.
  - rewrite H in A. destruct (proved (solver (Some (text 0)))) eqn:P; injection A as <- <-.
    + left. auto.
    + reflexivity.
  - injection A as <- <-. right. auto.
  - discriminate.
Qed.
End W.
