(** C05-C07: matching and equality. *)
From Coq Require Import List ZArith Bool.
From Verif Require Import Terms UnifySpec UnifyModel MatchModel MatchProof LongStrModel LongStrProof PropUnifyEx.
Import ListNotations.
Open Scope Z_scope.

(** C05.  Starting from any bindings: success exactly when some substitution that agrees
    with the earlier bindings produces the specific term, and then the bindings left behind
    are that substitution on every variable of the general term.  Conditional on the code's
    reads of constants as records being harmless ([sb] all true); see C05_stray_read. *)
Theorem C05_match_decides : forall x y s r s',
  match_term (fun _ => true) x y s = MDone r s' ->
  (r = true <-> exists t, agrees t (bank s) /\ app t x = y).
Proof. exact match_decides. Qed.
Print Assumptions C05_match_decides.

Theorem C05_match_answers : forall x y s, match_term (fun _ => true) x y s <> MStray.
Proof. exact match_answers. Qed.
Print Assumptions C05_match_answers.

Theorem C05_match_bindings : forall sb x y s s',
  match_term sb x y s = MDone true s' ->
  (forall i, In i (tvars x) -> bank s' i <> None) /\
  (forall i, ~ In i (tvars x) -> bank s' i = bank s i) /\
  (forall t, agrees t (bank s') -> agrees t (bank s) /\ app t x = y).
Proof. exact match_bindings. Qed.
Print Assumptions C05_match_bindings.

(** Whatever the stray reads do, a yes is right and a wrong answer is never given: the only
    other outcome is the stray read itself, and only on pairs that do not match. *)
Theorem C05_match_never_wrong : forall sb x y s,
  match match_term sb x y s with
  | MDone true _ => exists t, agrees t (bank s) /\ app t x = y
  | MDone false _ | MStray => forall t, agrees t (bank s) -> app t x <> y
  end.
Proof. exact match_never_wrong. Qed.
Print Assumptions C05_match_never_wrong.

(** Finding: matching constant 5 (general side) against f(a) reads a record header through
    the integer word. *)
Theorem C05_stray_read_refuted : forall sb, sb (CImm 43) = false ->
  exists x y, match_term sb x y empty_vst = MStray.
Proof. exact match_stray. Qed.
Print Assumptions C05_stray_read_refuted.

Example C05_nonvacuous :
  exists s', match_term (fun _ => true) ex_x (f [f [a; b]; a]) empty_vst = MDone true s' /\ bank s' 1 = Some (f [a; b]).
Proof. exact match_example. Qed.

(** C06.  Equality answers yes exactly on identical terms; both forms. *)
Theorem C06_equal_exact : forall x y, equal_term (fun _ => true) x y = EYes <-> x = y.
Proof. exact equal_term_exact. Qed.
Print Assumptions C06_equal_exact.

Theorem C06_equal_macro_exact : forall x y, equal_macro (fun _ => true) x y = EYes <-> x = y.
Proof. exact equal_macro_exact. Qed.
Print Assumptions C06_equal_macro_exact.

Theorem C06_equal_answers : forall x y,
  equal_term (fun _ => true) x y <> EStray /\ equal_macro (fun _ => true) x y <> EStray.
Proof. exact equal_answers. Qed.
Print Assumptions C06_equal_answers.

(** C07 is false of the code: two identical strings are reported different ... *)
Theorem C07_identical_strings_refuted : exists a b, a = b /\ lstr_equal a b = Some false.
Proof. exact lstr_reflexivity_fails. Qed.
Print Assumptions C07_identical_strings_refuted.

(** ... and two different ones are reported equal. *)
Theorem C07_distinct_strings_refuted : exists a b,
  ls_text a <> ls_text b /\ ls_type a = ls_type b /\ lstr_equal a b = Some true.
Proof. exact lstr_distinct_equal. Qed.
Print Assumptions C07_distinct_strings_refuted.

(** What does hold: strings whose second argument has text and prefix of 11 bytes, and first
    argument too, are compared exactly. *)
Theorem C07_eleven_bytes_partial : forall a b,
  length (ls_text a) = 11%nat -> length (ls_text b) = 11%nat ->
  lang_len a = 11%nat -> lang_len b = 11%nat ->
  (lstr_equal a b = Some true <-> ls_type a = ls_type b /\ ls_lang a = ls_lang b /\ ls_text a = ls_text b).
Proof. exact lstr_eleven. Qed.
Print Assumptions C07_eleven_bytes_partial.
