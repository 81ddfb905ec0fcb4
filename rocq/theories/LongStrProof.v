From Coq Require Import List ZArith Bool Lia.
From Verif Require Import LongStrModel.
Import ListNotations.
Open Scope Z_scope.

Lemma lstr_reflexivity_fails : exists a b, a = b /\ lstr_equal a b = Some false.
Proof. pose (s := {| ls_type := 5; ls_lang := None; ls_text := [97; 98] |}). exists s, s. split; reflexivity. Qed.

Lemma lstr_distinct_equal : exists a b,
  ls_text a <> ls_text b /\ ls_type a = ls_type b /\ lstr_equal a b = Some true.
Proof.
  exists {| ls_type := 5; ls_lang := Some [101]; ls_text := [97] |},
         {| ls_type := 5; ls_lang := Some [101;1;2;3;4;5;6;7;8;9;10]; ls_text := [97;1;2;3;4;5;6;7;8;9;10] |}.
  repeat split; discriminate.
Qed.

Lemma memcmp0_len x y n u v : length x = n -> length y = n ->
  exists r, memcmp0 (x ++ u) (y ++ v) n = Some r /\ (r = true <-> x = y).
Proof.
  revert x y; induction n as [|n IH]; intros [|p x] [|q y] Hx Hy; try discriminate.
  - exists true. split; [destruct u, v; reflexivity|]. split; auto.
  - cbn [memcmp0 List.app]. destruct (Z.eqb_spec p q) as [->|Hn].
    + injection Hx as Hx; injection Hy as Hy. destruct (IH x y Hx Hy) as (r&E&Hr). exists r. split; auto.
      rewrite Hr. split; [congruence|intros H; injection H; auto].
    + exists false. split; auto. split; [discriminate|congruence].
Qed.

Lemma lstr_eleven a b :
  length (ls_text a) = 11%nat -> length (ls_text b) = 11%nat ->
  lang_len a = 11%nat -> lang_len b = 11%nat ->
  (lstr_equal a b = Some true <-> ls_type a = ls_type b /\ ls_lang a = ls_lang b /\ ls_text a = ls_text b).
Proof.
  intros H1 H2 H3 H4. unfold lstr_equal. rewrite H1, H2, H3, H4. simpl Nat.eqb. cbn [negb].
  destruct (Z.eqb_spec (ls_type a) (ls_type b)) as [Et|Et]; cbn [negb].
  2:{ split; [discriminate|tauto]. }
  unfold lang_len in H3, H4.
  destruct (ls_lang a) as [l1|]; [|discriminate]. destruct (ls_lang b) as [l2|]; [|discriminate].
  destruct (memcmp0_len l1 l2 11 [0] [0] H3 H4) as (r&E&Hr). unfold cstr. rewrite E.
  destruct (memcmp0_len (ls_text a) (ls_text b) 11 [0] [0] H1 H2) as (q&E2&Hq). rewrite E2.
  destruct r.
  - assert (l1 = l2) by (apply Hr; auto). subst l2. split.
    + intros H; injection H as ->. repeat split; auto. apply Hq; auto.
    + intros (_&_&Hx). apply Hq in Hx. congruence.
  - split; [discriminate|]. intros (_&Hl&_). injection Hl as Hl. apply Hr in Hl. discriminate.
Qed.
