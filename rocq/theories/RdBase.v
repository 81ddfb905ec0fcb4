(** Heap lemmas for reading clauses. *)
From Coq Require Import String Ascii Bool Arith ZArith Lia List Permutation.
From Verif Require Import RdModel RdSpec.
Import ListNotations.
Open Scope string_scope.
Open Scope list_scope.
Open Scope nat_scope.

Scheme held_mut := Minimality for held Sort Prop
  with all_held_mut := Minimality for all_held Sort Prop.
Combined Scheme held_both from held_mut, all_held_mut.

Lemma nodup_l {A} (l m : list A) : NoDup (l ++ m) -> NoDup l.
Proof.
  induction l as [|x l IH]; cbn; [constructor|]. intros N. inversion N as [|? ? NI N']; subst. constructor; auto.
  intros I. apply NI. apply in_or_app; auto.
Qed.
Lemma nodup_r {A} (l m : list A) : NoDup (l ++ m) -> NoDup m.
Proof. induction l as [|x l IH]; cbn; auto. intros N. inversion N; subst; auto. Qed.
(** [h'] differs from [h] at most in the pairs of [L] and in new ones *)
Definition same_but (L : list nat) (h h' : heap) : Prop :=
  length h <= length h' /\ forall n, n < length h -> ~ In n L -> nth_error h' n = nth_error h n.
Lemma same_refl L h : same_but L h h.
Proof. split; [lia|reflexivity]. Qed.
Lemma same_trans L L' M h h' h'' : same_but L h h' -> same_but L' h' h'' -> incl L M -> incl L' M -> same_but M h h''.
Proof.
  intros [A B] [C D] I J. split; [lia|]. intros n N X. rewrite D, B; auto; lia.
Qed.
Lemma same_weak L M h h' : same_but L h h' -> incl L M -> same_but M h h'.
Proof. intros [A B] I. split; [lia|]. intros n N X. apply B; auto. Qed.
Lemma nth_lt (h : heap) n c : nth_error h n = Some c -> n < length h.
Proof. intros E. apply nth_error_Some. congruence. Qed.
Lemma same_nth L h h' n c : same_but L h h' -> nth_error h n = Some c -> ~ In n L -> nth_error h' n = Some c.
Proof. intros [A B] E N. rewrite B; auto. eapply nth_lt; eauto. Qed.

Lemma chain_same L h h' q S ps : chain h q S ps -> same_but L h h' -> (forall n, In n S -> ~ In n L) -> chain h' q S ps.
Proof.
  intros C F. induction C as [|n p q S ps E C IH]; intros D; [constructor|].
  econstructor.
  - eapply same_nth; eauto. apply D. left; auto.
  - apply IH. intros m M. apply D. right; auto.
Qed.
Lemma held_same W h h' : same_but W h h' ->
  (forall p t R L, held h p t R L -> (forall n, In n R \/ In n L -> ~ In n W) -> held h' p t R L) /\
  (forall ps ts R L, all_held h ps ts R L -> (forall n, In n R \/ In n L -> ~ In n W) -> all_held h' ps ts R L).
Proof.
  intros F. apply held_both.
  - constructor.
  - intros n f q S ps ts R L E I C _ IH D. econstructor; eauto.
    + eapply same_nth; eauto. apply D. left; left; auto.
    + eapply chain_same; eauto. intros m M. apply D. left. right. apply in_or_app; auto.
    + apply IH. intros m M. apply D. destruct M as [M|M]; auto. left. right. apply in_or_app; auto.
  - intros n f E I D. econstructor; eauto. eapply same_nth; eauto. apply D. left; left; auto.
  - intros n f m q r S ps t ts R L E I E' C _ IH D. econstructor; eauto.
    + eapply same_nth; eauto. apply D. left; left; auto.
    + eapply same_nth; eauto. apply D. left; right; left; auto.
    + eapply chain_same; eauto. intros k K. apply D. right. apply in_or_app; auto.
    + apply IH. intros k K. apply D. destruct K as [K|K]; [left; right; right; auto|right; apply in_or_app; auto].
  - constructor.
  - intros p t ps ts R L R' L' _ IH _ IH' D. constructor.
    + apply IH. intros n N. apply D. destruct N; [left|right]; apply in_or_app; auto.
    + apply IH'. intros n N. apply D. destruct N; [left|right]; apply in_or_app; auto.
Qed.
Lemma held_lt h : 
  (forall p t R L, held h p t R L -> forall n, In n R \/ In n L -> n < length h) /\
  (forall ps ts R L, all_held h ps ts R L -> forall n, In n R \/ In n L -> n < length h).
Proof.
  assert (CH : forall q S ps, chain h q S ps -> forall n, In n S -> n < length h).
  { intros q S ps C. induction C; cbn; intros k K; [easy|]. destruct K as [<-|K]; eauto using nth_lt. }
  apply held_both.
  - cbn. intuition.
  - intros n f q S ps ts R L E I C _ IH k [[<-|K]|K]; eauto using nth_lt.
    apply in_app_or in K as [K|K]; eauto.
  - intros n f E I k [[<-|[]]|[]]; eauto using nth_lt.
  - intros n f m q r S ps t ts R L E I E' C _ IH k [[<-|[<-|K]]|K]; eauto using nth_lt.
    apply in_app_or in K as [K|K]; eauto.
  - cbn. intuition.
  - intros p t ps ts R L R' L' _ IH _ IH' k [K|K]; apply in_app_or in K as [K|K]; eauto.
Qed.

Lemma all_held_app h ps ts R L ps' ts' R' L' :
  all_held h ps ts R L -> all_held h ps' ts' R' L' -> all_held h (ps ++ ps') (ts ++ ts') (R ++ R') (L ++ L').
Proof.
  intros A B. induction A; cbn; auto. rewrite <- !app_assoc. constructor; auto.
Qed.
Lemma all_held_rev h ps ts R L : all_held h ps ts R L ->
  exists R' L', all_held h (rev ps) (rev ts) R' L' /\ Permutation R R' /\ Permutation L L'.
Proof.
  intros A. induction A as [|p t ps ts R L R' L' H A (R2 & L2 & IH & P & Q)].
  - exists [], []. repeat constructor.
  - cbn. exists (R2 ++ (R ++ [])), (L2 ++ (L ++ [])). split; [|split].
    + apply all_held_app; auto. constructor; auto. constructor.
    + rewrite app_nil_r. rewrite Permutation_app_comm. apply Permutation_app; auto.
    + rewrite app_nil_r. rewrite Permutation_app_comm. apply Permutation_app; auto.
Qed.
Lemma all_held_len h ps ts R L : all_held h ps ts R L -> length ps = length ts.
Proof. intros A. induction A; cbn; auto. Qed.
Lemma chain_len h q S ps : chain h q S ps -> length S = length ps.
Proof. intros A. induction A; cbn; auto. Qed.

(** * Reversal in place *)
Lemma upd_len h n c : length (upd h n c) = length h.
Proof. revert n. induction h; intros [|n]; cbn; auto. Qed.
Lemma upd_same h n c : n < length h -> nth_error (upd h n c) n = Some c.
Proof. revert n. induction h; intros [|n] L; cbn in *; try lia; auto. apply IHh. lia. Qed.
Lemma upd_other h n m c : n <> m -> nth_error (upd h n c) m = nth_error h m.
Proof. revert n m. induction h; intros [|n] [|m] N; cbn; auto; try easy. Qed.
Lemma set_rest_same h n x y q : nth_error h n = Some (x, y) -> nth_error (set_rest h n q) n = Some (x, q).
Proof. intros E. unfold set_rest. rewrite E. apply upd_same. eapply nth_lt; eauto. Qed.
Lemma set_rest_but h n q : same_but [n] h (set_rest h n q) /\ length (set_rest h n q) = length h.
Proof.
  unfold set_rest. destruct nth_error as [[x y]|]; [|split; [apply same_refl|auto]].
  split; [|apply upd_len]. split; [rewrite upd_len; lia|]. intros m M N. apply upd_other. cbn in N. intuition.
Qed.
Lemma reverse_loop_ok : forall ps2 fuel h prev cur S1 ps1 S2,
  chain h prev S1 ps1 -> chain h cur S2 ps2 -> NoDup (S1 ++ S2) -> length S2 < fuel ->
  exists h' p, reverse_loop fuel h prev cur = Ok (h', p) /\ chain h' p (rev S2 ++ S1) (rev ps2 ++ ps1) /\
    same_but S2 h h' /\ length h' = length h.
Proof.
  induction ps2 as [|x ps2 IH]; intros fuel h prev cur S1 ps1 S2 C1 C2 N F.
  - inversion C2; subst. destruct fuel as [|fuel]; [cbn in F; lia|]. cbn. exists h, prev. repeat split; auto.
  - inversion C2 as [|n p q S ps E C]; subst. cbn in F. destruct fuel as [|fuel]; [lia|]. cbn. rewrite E.
    destruct (set_rest_but h n prev) as (B & BL).
    assert (NS1 : ~ In n S1).
    { intros K. apply (NoDup_remove_2 _ _ _ N). apply in_or_app; auto. }
    assert (NS : ~ In n S).
    { intros K. apply (NoDup_remove_2 _ _ _ N). apply in_or_app; auto. }
    destruct (IH fuel (set_rest h n prev) (PC n) q (n :: S1) (x :: ps1) S) as (h' & p & E' & C' & B' & L').
    + econstructor; [eapply set_rest_same; eauto|]. eapply chain_same; eauto. cbn. intros m M [<-|[]]. auto.
    + eapply chain_same; eauto. cbn. intros m M [<-|[]]. auto.
    + eapply Permutation_NoDup; [|exact N]. cbn. apply Permutation_sym, Permutation_middle.
    + lia.
    + exists h', p. split; [auto|]. split; [|split].
      * cbn. rewrite <- !app_assoc. cbn. auto.
      * eapply same_trans; eauto.
        -- intros m [<-|[]]. left; auto.
        -- intros m M. right; auto.
      * congruence.
Qed.
Lemma reverse_ok h q S ps fuel : chain h q S ps -> ps <> [] -> NoDup S -> length S < fuel ->
  exists h' p, reverse_inplace fuel h q = Ok (h', p) /\ chain h' p (rev S) (rev ps) /\
    same_but S h h' /\ length h' = length h.
Proof.
  intros C NE N F. inversion C as [|n p q' S' ps' E C']; subst; [easy|]. cbn. rewrite E.
  inversion N as [|? ? NI N']; subst. cbn in F.
  destruct (set_rest_but h n PN) as (B & BL).
  destruct (reverse_loop_ok ps' fuel (set_rest h n PN) (PC n) q' [n] [p] S') as (h' & r & E' & C2 & B' & L').
  - econstructor; [eapply set_rest_same; eauto|constructor].
  - eapply chain_same; eauto. cbn. intros m M [<-|[]]. auto.
  - cbn. constructor; auto.
  - lia.
  - exists h', r. split; [auto|]. split; [auto|]. split; [|congruence]. eapply same_trans; eauto.
    + intros m [<-|[]]. left; auto.
    + intros m M. right; auto.
Qed.

(** * Building $list terms *)
Definition lst_head : watom := mka TUri "$list" None.
Definition nil_atom : watom := mka TUri "$nil" None.
Fixpoint chain_term (ts : list wterm) : wterm :=
  match ts with [] => WA nil_atom | t :: r => WF lst_head [t; chain_term r] end.

Lemma same_app h e : same_but [] h (h ++ e).
Proof. split; [rewrite app_length; lia|]. intros n N _. apply nth_error_app1; auto. Qed.
Lemma list_loop_ok : forall ps fuel h q S r ts T R L R0 L0,
  chain h q S ps -> all_held h ps ts R L -> held h r T R0 L0 -> length S < fuel ->
  exists h' r' R' L', list_loop fuel h q r = Ok (h', r') /\
    held h' r' (fold_left (fun acc t => WF lst_head [t; acc]) ts T) R' L' /\
    Permutation L' (L ++ L0) /\ (forall n, In n R' -> In n R \/ In n R0 \/ length h <= n) /\
    same_but [] h h' /\ (ps <> [] -> exists n, r' = PC n).
Proof.
  induction ps as [|p ps IH]; intros fuel h q S r ts T R L R0 L0 C A H F.
  - inversion C; subst. inversion A; subst. destruct fuel; [cbn in F; lia|]. cbn.
    exists h, r, R0, L0. split; [auto|]. split; [auto|]. split; [auto|]. split; [auto|].
    split; [apply same_refl|]. intros X. elim X; auto.
  - inversion C as [|n p' q' S' ps' E C']; subst. inversion A as [|p' t ps' ts' R1 L1 R2 L2 HT HA]; subst.
    destruct fuel as [|fuel]; [cbn in F; lia|]. cbn [list_loop]. rewrite E.
    set (H1 := h ++ [(r, PN)]).
    set (H2 := H1 ++ [(p, PC (length h))]).
    set (H3 := H2 ++ [(uri "$list", PC (length H1))]).
    assert (ML : mklist3 h (uri "$list") p r = (H3, PC (length H2))) by reflexivity.
    rewrite ML.
    assert (E3 : H3 = h ++ [(r, PN); (p, PC (length h)); (uri "$list", PC (length H1))]).
    { unfold H3, H2, H1. rewrite <- !app_assoc. reflexivity. }
    assert (SA : same_but [] h H3) by (rewrite E3; apply same_app).
    assert (LH1 : length H1 = length h + 1) by (unfold H1; rewrite app_length; reflexivity).
    assert (LH2 : length H2 = length h + 2) by (unfold H2; rewrite app_length, LH1; cbn; lia).
    destruct (held_same [] h H3 SA) as (FA & FB).
    assert (N0 : nth_error H3 (length h) = Some (r, PN)).
    { rewrite E3, nth_error_app2, Nat.sub_diag by lia. reflexivity. }
    assert (N1 : nth_error H3 (length H1) = Some (p, PC (length h))).
    { rewrite E3, nth_error_app2, LH1 by lia. replace (length h + 1 - length h) with 1 by lia. reflexivity. }
    assert (N2 : nth_error H3 (length H2) = Some (uri "$list", PC (length H1))).
    { rewrite E3, nth_error_app2, LH2 by lia. replace (length h + 2 - length h) with 2 by lia. reflexivity. }
    assert (HN : held H3 (PC (length H2)) (WF lst_head [t; T])
                   (length H2 :: [length H1; length h] ++ (R1 ++ (R0 ++ []))) (L1 ++ (L0 ++ []))).
    { eapply held_app with (ps := [p; r]); [exact N2|reflexivity| |].
      - econstructor; [exact N1|]. econstructor; [exact N0|constructor].
      - constructor; [apply FA; auto|]. constructor; [apply FA; auto|]. constructor. }
    destruct (IH fuel H3 q' S' (PC (length H2)) ts' (WF lst_head [t; T]) R2 L2
                (length H2 :: [length H1; length h] ++ (R1 ++ (R0 ++ []))) (L1 ++ (L0 ++ [])))
      as (h' & r' & R' & L' & EE & HH & PP & RR & SS & NN); auto.
    + eapply chain_same; eauto.
    + cbn in F. lia.
    + exists h', r', R', L'. split; [exact EE|]. split; [exact HH|]. split; [|split; [|split]].
      * rewrite PP, app_nil_r. rewrite app_assoc. apply Permutation_app_tail, Permutation_app_comm.
      * intros m M. apply RR in M as [M|[M|M]].
        -- left. apply in_or_app; auto.
        -- cbn in M. rewrite app_nil_r in M. destruct M as [M|[M|[M|M]]]; try (right; right; lia).
           apply in_app_or in M as [M|M]; [left; apply in_or_app; auto|auto].
        -- right; right. destruct SA. lia.
      * eapply same_trans; [exact SA|exact SS|easy|easy].
      * intros _. destruct ps as [|p2 ps]; [|apply NN; easy].
        inversion C'; subst. destruct fuel; [cbn in F; lia|]. cbn in EE. inversion EE; subst. eauto.
Qed.
Lemma fold_chain ts : fold_left (fun acc t => WF lst_head [t; acc]) (rev ts) (WA nil_atom) = chain_term ts.
Proof.
  rewrite <- (fold_left_rev_right (fun t acc => WF lst_head [t; acc])), rev_involutive.
  induction ts; cbn; congruence.
Qed.
