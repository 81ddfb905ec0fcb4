From Coq Require Import List ZArith Bool Lia.
From Verif Require Import Word64 Terms MatchModel MatchProof VecModel VecSpec VecProof HashModel HashSpec.
Import ListNotations.
Open Scope Z_scope.

(** * Unit stores *)
Section Units.
  Variable dhash : dblv -> Z.
  Variable ltext : Z -> list Z.
  Variable den : Z -> term.
  Variable len : Z.

  Definition slot_of (t : term) : Z := slot (new_harr len) (term_hash dhash ltext t).
  Definition at_slot (k : Z) (h : list (Z * Z)) := filter (fun e => slot_of (den (fst e)) =? k) h.

  Definition holds (v : vec) (E : list (Z * Z)) : Prop :=
    exists hh, cvec_run 4 hh v /\ next_index hh = 2 + 2 * Z.of_nat (length E) /\
      forall i w cl, nth_error E i = Some (w, cl) ->
        stored hh (2 + 2 * Z.of_nat i) = Some w /\ stored hh (3 + 2 * Z.of_nat i) = Some cl.

  Lemma units_inv h st : units dhash ltext den len h st ->
    2 <= len /\ hlen st = len /\
    forall k, match cells st k with Some v => holds v (at_slot k h) | None => at_slot k h = [] end.
  Proof.
    induction 1 as [Hl|h st ok0 ok1 ok2 junk w cl st' R IH Hn E].
    - split; [auto|]. split; [reflexivity|]. intros k. reflexivity.
    - destruct IH as (Hl&Hh&I). unfold store_unit, push_termhash in E.
      assert (Hk : slot st (term_hash dhash ltext (den w)) = slot_of (den w)) by (unfold slot_of, slot; rewrite Hh; reflexivity).
      rewrite Hk in E. set (k0 := slot_of (den w)) in *.
      assert (B : exists v, match cells st k0 with Some v => Some v | None => if ok0 then Some (cvec_new 4 junk) else None end = Some v
                            /\ holds v (at_slot k0 h)).
      { specialize (I k0). destruct (cells st k0) as [v|] eqn:Ec; [exists v; auto|]. destruct ok0; [|discriminate].
        exists (cvec_new 4 junk). split; [reflexivity|]. rewrite I. exists []. split; [apply cr_new; unfold index_max; lia|].
        split; [reflexivity|]. intros [|i] ? ? X; discriminate X. }
      destruct B as (v&Ev&hh&Rv&Nv&Sv). rewrite Ev in E.
      destruct (cvec_push ok1 junk v w) as [v1| |] eqn:E1; try discriminate.
      destruct (cvec_push ok2 junk v1 cl) as [v2| |] eqn:E2; try discriminate. injection E as <-.
      assert (Len : (length (at_slot k0 h) <= length h)%nat).
      { unfold at_slot. clear. induction h as [|e h IH]; cbn; [lia|]. destruct (_ =? _); cbn; lia. }
      assert (R1 : cvec_run 4 ((next_index hh, w) :: hh) v1).
      { eapply cr_push; [exact Rv|apply (cvec_next _ _ _ Rv)|rewrite Nv; unfold index_max; lia|exact E1]. }
      assert (N1 : next_index ((next_index hh, w) :: hh) = next_index hh + 1) by (cbn; lia).
      assert (R2 : cvec_run 4 ((next_index hh + 1, cl) :: (next_index hh, w) :: hh) v2).
      { eapply cr_push; [exact R1|rewrite (cvec_next _ _ _ R1), N1; reflexivity|rewrite Nv; unfold index_max; lia|exact E2]. }
      split; [auto|]. split; [exact Hh|]. intros k. cbn [cells set_cell].
      unfold at_slot. rewrite filter_app. cbn [filter fst]. fold k0. rewrite (Z.eqb_sym k k0).
      destruct (Z.eqb_spec k0 k) as [<-|Hne].
      + exists ((next_index hh + 1, cl) :: (next_index hh, w) :: hh). split; [exact R2|]. fold (at_slot k0 h).
        rewrite app_length. cbn [length next_index]. split; [lia|].
        intros i w' cl' Hi. destruct (Nat.lt_ge_cases i (length (at_slot k0 h))) as [Hlt|Hge].
        * rewrite nth_error_app1 in Hi by auto. destruct (Sv i w' cl' Hi) as [S1 S2]. cbn [stored].
          rewrite (proj2 (Z.eqb_neq (next_index hh + 1) _)) by lia. rewrite (proj2 (Z.eqb_neq (next_index hh) _)) by lia.
          rewrite (proj2 (Z.eqb_neq (next_index hh + 1) _)) by lia. rewrite (proj2 (Z.eqb_neq (next_index hh) _)) by lia. auto.
        * rewrite nth_error_app2 in Hi by auto. destruct (i - length (at_slot k0 h))%nat as [|j] eqn:Ei; [|destruct j; discriminate].
          cbn in Hi. injection Hi as <- <-. assert (i = length (at_slot k0 h)) by lia. subst i. cbn [stored].
          split.
          -- rewrite (proj2 (Z.eqb_neq (next_index hh + 1) _)) by lia. rewrite (proj2 (Z.eqb_eq (next_index hh) _)) by lia. reflexivity.
          -- rewrite (proj2 (Z.eqb_eq (next_index hh + 1) _)) by lia. reflexivity.
      + rewrite app_nil_r. fold (at_slot k h). apply I.
  Qed.

  Fixpoint scan (sb : stray_env) (x : term) (E : list (Z * Z)) : fres :=
    match E with
    | [] => FNone
    | (w, cl) :: E => match equal_term sb x (den w) with EYes => FFound cl | ENo => scan sb x E | EStray => FStray end
    end.

  Lemma find_loop_scan sb x v E hh vl : cvec_run 4 hh v -> next_index hh = 2 + 2 * Z.of_nat (length E) ->
    (forall i w cl, nth_error E i = Some (w, cl) ->
        stored hh (2 + 2 * Z.of_nat i) = Some w /\ stored hh (3 + 2 * Z.of_nat i) = Some cl) ->
    rd v 0 = Some vl ->
    forall n i, (length E - i <= n)%nat -> find_loop den sb n x v (2 + 2 * Z.of_nat i) = scan sb x (skipn i E).
  Proof.
    intros R Nx Sx R0. destruct (cvec_run_inv _ _ _ R) as (vlen&R0'&Hv&_&HL&R1&I).
    assert (vl = vlen) by congruence. subst vl.
    induction n as [|n IH]; intros i Hn; cbn [find_loop]; rewrite R0, R1, Nx.
    - assert ((length E <= i)%nat) by lia. rewrite skipn_all2 by lia.
      rewrite (proj2 (Z.ltb_ge (2 + 2 * Z.of_nat i) (2 + 2 * Z.of_nat (length E)))) by lia. rewrite andb_false_r. reflexivity.
    - destruct (Nat.le_gt_cases (length E) i) as [Hle|Hgt].
      + rewrite skipn_all2 by lia.
        rewrite (proj2 (Z.ltb_ge (2 + 2 * Z.of_nat i) (2 + 2 * Z.of_nat (length E)))) by lia. rewrite andb_false_r. reflexivity.
      + destruct (nth_error E i) as [[w cl]|] eqn:Ei; [|apply nth_error_None in Ei; lia].
        destruct (Sx i w cl Ei) as [S1 S2]. destruct (I _ _ S1) as (_&W1&_). destruct (I _ _ S2) as (_&W2&B2).
        rewrite (proj2 (Z.ltb_lt (2 + 2 * Z.of_nat i) vlen)) by lia.
        rewrite (proj2 (Z.ltb_lt (2 + 2 * Z.of_nat i) (2 + 2 * Z.of_nat (length E)))) by lia. cbn [andb].
        rewrite W1. replace (2 + 2 * Z.of_nat i + 1) with (3 + 2 * Z.of_nat i) by lia. rewrite W2.
        assert (Sk : skipn i E = (w, cl) :: skipn (S i) E).
        { clear - Ei. revert i Ei. induction E as [|e E IH]; intros [|i] Ei; try discriminate; cbn in *; [congruence|]. apply IH, Ei. }
        rewrite Sk. cbn [scan]. destruct (equal_term sb x (den w)); [reflexivity| |reflexivity].
        replace (2 + 2 * Z.of_nat i + 2) with (2 + 2 * Z.of_nat (S i)) by lia. apply IH. lia.
  Qed.

  Lemma find_scan sb h st x : units dhash ltext den len h st ->
    find_unit dhash ltext den sb st x = scan sb x (at_slot (slot_of x) h).
  Proof.
    intros R. destruct (units_inv h st R) as (Hl&Hh&I). unfold find_unit, find_termhash.
    assert (Hk : slot st (term_hash dhash ltext x) = slot_of x) by (unfold slot_of, slot; rewrite Hh; reflexivity).
    rewrite Hk. specialize (I (slot_of x)). destruct (cells st (slot_of x)) as [v|]; [|rewrite I; reflexivity].
    destruct I as (hh&Rv&Nv&Sv). destruct (cvec_run_inv _ _ _ Rv) as (vlen&R0&Hv&_&HL&R1&I).
    pose proof (find_loop_scan sb x v _ hh vlen Rv Nv Sv R0 (length v) 0) as F. cbn [skipn Z.of_nat] in F.
    change (2 + 2 * 0) with 2 in F. apply F.
    destruct (at_slot (slot_of x) h) as [|e E] eqn:EE; [cbn; lia|].
    destruct (nth_error (e :: E) (length E)) as [[w cl]|] eqn:El; [|apply nth_error_None in El; cbn in El; lia].
    destruct (Sv _ _ _ El) as [_ S2]. destruct (I _ _ S2) as (_&_&B). cbn [length]. lia.
  Qed.

  Lemma scan_found sb x E cl : scan sb x E = FFound cl -> exists w, In (w, cl) E /\ den w = x.
  Proof.
    induction E as [|[w c] E IH]; cbn [scan]; [discriminate|]. destruct (equal_term sb x (den w)) eqn:Eq; intros H; try discriminate.
    - injection H as ->. exists w. split; [left; reflexivity|]. pose proof (equal_term_spec sb x (den w)) as Q. rewrite Eq in Q. auto.
    - destruct (IH H) as (w'&Hin&Hd). exists w'. split; [right; exact Hin|exact Hd].
  Qed.
  Lemma scan_none sb x E : scan sb x E = FNone -> forall w cl, In (w, cl) E -> den w <> x.
  Proof.
    induction E as [|[w c] E IH]; cbn [scan]; [intros _ ? ? []|]. destruct (equal_term sb x (den w)) eqn:Eq; intros H; try discriminate.
    intros w' cl' [X|X]; [|eapply IH; eauto]. injection X as -> ->. intros Hd. rewrite Hd in Eq.
    rewrite (equal_term_refl sb x) in Eq. discriminate.
  Qed.
  Lemma scan_not_ub sb x E : scan sb x E <> FUB.
  Proof. induction E as [|[w c] E IH]; cbn [scan]; [discriminate|]. destruct (equal_term sb x (den w)); [discriminate|exact IH|discriminate]. Qed.

  Lemma in_at_slot k h e : In e (at_slot k h) -> In e h.
  Proof. unfold at_slot. rewrite filter_In. tauto. Qed.

  Lemma unit_found sb h st x cl : units dhash ltext den len h st -> find_unit dhash ltext den sb st x = FFound cl ->
    exists w, In (w, cl) h /\ den w = x.
  Proof.
    intros R F. rewrite (find_scan sb h st x R) in F. destruct (scan_found _ _ _ _ F) as (w&Hin&Hd).
    exists w. split; [eapply in_at_slot; eauto|exact Hd].
  Qed.
  Lemma unit_none sb h st x : units dhash ltext den len h st -> find_unit dhash ltext den sb st x = FNone ->
    forall w cl, In (w, cl) h -> den w <> x.
  Proof.
    intros R F w cl Hin Hd. rewrite (find_scan sb h st x R) in F. apply (scan_none _ _ _ F w cl); [|exact Hd].
    unfold at_slot. rewrite filter_In. split; [exact Hin|]. cbn [fst]. rewrite Hd. apply Z.eqb_refl.
  Qed.
  Lemma unit_no_ub sb h st x : units dhash ltext den len h st -> find_unit dhash ltext den sb st x <> FUB.
  Proof. intros R. rewrite (find_scan sb h st x R). apply scan_not_ub. Qed.
  Lemma unit_stored h st x w cl : units dhash ltext den len h st -> In (w, cl) h -> den w = x ->
    exists cl', find_unit dhash ltext den (fun _ => true) st x = FFound cl'.
  Proof.
    intros R Hin Hd. destruct (find_unit dhash ltext den (fun _ => true) st x) as [c| | |] eqn:F; [eauto| | |].
    - destruct (unit_none _ h st x R F w cl Hin Hd).
    - rewrite (find_scan _ h st x R) in F. exfalso. revert F. generalize (at_slot (slot_of x) h) as E. clear.
      induction E as [|[w c] E IH]; cbn [scan]; [discriminate|]. destruct (equal_term (fun _ => true) x (den w)) eqn:Eq; [discriminate|exact IH|].
      intros _. exact (equal_term_nostray _ (fun _ => eq_refl) _ _ Eq).
    - destruct (unit_no_ub _ h st x R F).
  Qed.
  (** With memory available a store succeeds. *)
  Lemma unit_store_ok h st junk w cl : units dhash ltext den len h st -> Z.of_nat (length h) < 2 ^ 28 ->
    exists st', store_unit dhash ltext den true true true junk st w cl = Some st'.
  Proof.
    intros R Hn. destruct (units_inv h st R) as (Hl&Hh&I). unfold store_unit, push_termhash.
    set (k := slot st (term_hash dhash ltext (den w))).
    assert (B : exists v E, match cells st k with Some v => Some v | None => Some (cvec_new 4 junk) end = Some v /\ holds v E /\ (length E <= length h)%nat).
    { specialize (I k). destruct (cells st k) as [v|].
      - exists v, (at_slot k h). repeat split; auto. unfold at_slot. clear. induction h as [|e h IH]; cbn; [lia|]. destruct (_ =? _); cbn; lia.
      - exists (cvec_new 4 junk), []. split; [reflexivity|]. split; [|cbn; lia]. exists []. split; [apply cr_new; unfold index_max; lia|].
        split; [reflexivity|]. intros [|i] ? ? X; discriminate X. }
    destruct B as (v&E&Ev&(hh&Rv&Nv&_)&HE). rewrite Ev.
    destruct (cvec_push_defined 4 hh v w true junk Rv ltac:(rewrite Nv; unfold index_max; lia)) as [(v1&E1&R1)|[_ X]]; [|discriminate].
    rewrite E1. destruct (cvec_push_defined 4 _ v1 cl true junk R1 ltac:(cbn [next_index]; rewrite Nv; unfold index_max; lia)) as [(v2&E2&_)|[_ X]]; [|discriminate].
    rewrite E2. eauto.
  Qed.
End Units.

Lemma term_hash_int dhash ltext t : (forall d, - 2 ^ 31 <= dhash d < 2 ^ 31) -> - 10 ^ 6 <= term_hash dhash ltext t <= 10 ^ 6.
Proof.
  intros Hd. destruct t as [i|c|fs]; cbn [term_hash].
  - unfold var_basehash. pose proof (Z.rem_bound_abs (neg_fix32 (int_hash (w32 i))) 999997 ltac:(lia)). lia.
  - unfold basehash. pose proof (Z.rem_bound_abs (neg_fix32 (value_hash dhash ltext c)) 999997 ltac:(lia)). lia.
  - set (x := fold_left _ _ _). pose proof (Z.rem_bound_abs x 999998 ltac:(lia)). destruct (Z.ltb_spec (Z.rem x 999998) 0); lia.
Qed.
Lemma slot_inside len hash : 2 <= len -> 1 <= slot (new_harr len) hash < len.
Proof.
  intros Hl. unfold slot. cbn [hlen new_harr]. set (h := if hash <? 0 then 0 - hash else hash).
  assert (0 <= h) by (unfold h; destruct (Z.ltb_spec hash 0); lia).
  destruct (Z.leb_spec len (h + 1)); [|lia]. pose proof (Z.rem_bound_pos h (len - 1) ltac:(lia) ltac:(lia)). lia.
Qed.

(** * Hash lists *)
Fixpoint linked (nd : Z -> node) (a : Z) (addrs : list Z) (E : list (Z * Z * Z)) : Prop :=
  match addrs, E with
  | [], [] => a = 0
  | x :: addrs, (t, c, p) :: E => a = x /\ x <> 0 /\ n_term (nd x) = t /\ n_cl (nd x) = c /\ n_path (nd x) = p /\
                                  linked nd (n_next (nd x)) addrs E
  | _, _ => False
  end.
Lemma linked_ext nd nd' : forall addrs a E, (forall x, In x addrs -> nd' x = nd x) -> linked nd a addrs E -> linked nd' a addrs E.
Proof.
  induction addrs as [|x addrs IH]; intros a E H L; destruct E as [|[[t c] p] E]; cbn [linked] in *; auto.
  rewrite (H x (or_introl eq_refl)). destruct L as (A&B&C&D&F&G). repeat split; auto. apply IH; auto. intros y Hy. apply H. right; exact Hy.
Qed.
Lemma linked_walk l : forall addrs a E n, linked (nodes l) a addrs E -> (length E <= n)%nat -> walk n l a = Some E.
Proof.
  induction addrs as [|x addrs IH]; intros a E n L Hn; destruct E as [|[[t c] p] E]; cbn [linked] in L; try contradiction.
  - subst a. destruct n; reflexivity.
  - destruct L as (->&H0&<-&<-&<-&L). destruct n as [|n]; [cbn in Hn; lia|]. cbn [walk].
    rewrite (proj2 (Z.eqb_neq x 0) H0). rewrite (IH _ _ n L) by (cbn in Hn; lia). reflexivity.
Qed.

Definition one_list (l : hlist) (k : Z) (E : list (Z * Z * Z)) (chain : list Z) : Prop :=
  match chain with
  | [] => heads l k = 0 /\ E = []
  | hd :: addrs => heads l k = hd /\ hd <> 0 /\ n_term (nodes l hd) = Z.of_nat (length E) /\ E <> [] /\
                   linked (nodes l) (n_next (nodes l hd)) addrs E
  end.
Lemma one_list_ext l l' k E chain : heads l' k = heads l k -> (forall x, In x chain -> nodes l' x = nodes l x) ->
  one_list l k E chain -> one_list l' k E chain.
Proof.
  intros Hh Hn. destruct chain as [|hd addrs]; cbn [one_list]; rewrite Hh; auto.
  rewrite (Hn hd (or_introl eq_refl)). intros (A&B&C&D&F). repeat split; auto. eapply linked_ext; [|exact F].
  intros x Hx. apply Hn. right; exact Hx.
Qed.

Lemma set_node_same nd a x : set_node nd a x a = x.
Proof. unfold set_node. rewrite Z.eqb_refl. reflexivity. Qed.
Lemma set_node_other nd a x b : b <> a -> set_node nd a x b = nd b.
Proof. intros H. unfold set_node. rewrite (proj2 (Z.eqb_neq b a) H). reflexivity. Qed.

Lemma lists_inv len used h l : lists len used h l ->
  vlen l = len /\ exists ch : Z -> list Z,
    (forall k, one_list l k (under k h) (ch k)) /\
    (forall k, NoDup (ch k)) /\ (forall k a, In a (ch k) -> In a used) /\
    (forall k k' a, In a (ch k) -> In a (ch k') -> k = k') /\
    (forall k e, In (k, e) h -> is_slot len k).
Proof.
  induction 1 as [nd|used h l k t c p a0 a1 l' R IH H0 H1 H01 F0 F1 E].
  - split; [reflexivity|]. exists (fun _ => []). split; [intros k; split; reflexivity|]. split; [intros k; constructor|].
    split; [intros k a []|]. split; [intros k k' a []|intros k e []].
  - destruct IH as (Hv&ch&C1&C2&C3&C4&C5). unfold add_hashlist in E. rewrite Hv in E.
    destruct (Z.leb_spec len k) as [|Hk1]; [discriminate|]. destruct (Z.ltb_spec k 1) as [|Hk2]; [discriminate|]. cbn [orb] in E.
    assert (Un : forall j, under j ((k, (t, c, p)) :: h) = if k =? j then (t, c, p) :: under j h else under j h).
    { intros j. unfold under. cbn [filter fst]. destruct (k =? j); reflexivity. }
    destruct (Z.eqb_spec (heads l k) 0) as [Eh|Eh].
    + rewrite (proj2 (Z.eqb_neq a0 0) H0), (proj2 (Z.eqb_neq a1 0) H1) in E. cbn [orb] in E. injection E as <-.
      split; [exact eq_refl|].
      assert (Ck : ch k = [] /\ under k h = []).
      { specialize (C1 k). destruct (ch k) as [|hd addrs]; cbn [one_list] in C1; [tauto|]. destruct C1 as (A&B&_). congruence. }
      destruct Ck as [Ck Uk].
      exists (fun j => if j =? k then [a0; a1] else ch j). split; [|split; [|split; [|split]]].
      * intros j. rewrite Un. destruct (Z.eqb_spec j k) as [->|Hjk].
        -- rewrite Z.eqb_refl, Uk. cbn [one_list heads nodes]. rewrite Z.eqb_refl. rewrite !set_node_same. cbn [n_term n_next].
           rewrite !(set_node_other _ _ _ a0) by auto. rewrite !set_node_same. cbn [n_term length].
           split; [reflexivity|]. split; [auto|]. split; [reflexivity|]. split; [discriminate|].
           cbn [linked]. rewrite !(set_node_other _ a0 _ a1) by auto. rewrite set_node_same. cbn. repeat split; auto.
        -- rewrite (proj2 (Z.eqb_neq k j)) by auto. eapply one_list_ext; [| |apply C1].
           ++ cbn [heads]. rewrite (proj2 (Z.eqb_neq j k)) by auto. reflexivity.
           ++ intros x Hx. pose proof (C3 j x Hx). cbn [nodes]. rewrite !set_node_other; [reflexivity| | |]; intros ->; tauto.
      * intros j. destruct (Z.eqb_spec j k); [|apply C2]. constructor; [intros [X|[]]; congruence|]. constructor; [intros []|constructor].
      * intros j a. destruct (Z.eqb_spec j k).
        -- intros [<-|[<-|[]]]; [left; reflexivity|right; left; reflexivity].
        -- intros Hin. right. right. eapply C3; eauto.
      * intros j j' a. destruct (Z.eqb_spec j k) as [->|], (Z.eqb_spec j' k) as [->|]; auto.
        -- intros [<-|[<-|[]]] X; apply C3 in X; contradiction.
        -- intros X [<-|[<-|[]]]; apply C3 in X; contradiction.
        -- apply C4.
      * intros j e [X|X]; [injection X as -> _; split; assumption|eapply C5; eauto].
    + rewrite (proj2 (Z.eqb_neq a1 0) H1) in E. injection E as <-.
      split; [exact eq_refl|].
      pose proof (C1 k) as Ck. destruct (ch k) as [|hd addrs] eqn:Ech; cbn [one_list] in Ck; [tauto|].
      destruct Ck as (Hhd&Hd0&Hlen&Hne&Lk). rewrite Hhd in *.
      assert (Nd : NoDup (hd :: addrs)) by (rewrite <- Ech; apply C2).
      assert (Ha1 : forall x, In x (hd :: addrs) -> x <> a1).
      { intros x Hx ->. rewrite <- Ech in Hx. apply C3 in Hx. contradiction. }
      exists (fun j => if j =? k then hd :: a1 :: addrs else ch j). split; [|split; [|split; [|split]]].
      * intros j. rewrite Un. destruct (Z.eqb_spec j k) as [->|Hjk].
        -- rewrite Z.eqb_refl. cbn [one_list heads nodes]. rewrite Hhd. rewrite !set_node_same. cbn [n_term n_next].
           pose proof (Ha1 hd (or_introl eq_refl)) as Hn1.
           rewrite !(set_node_other _ a1 _ hd) by auto. rewrite !set_node_same. cbn [n_term].
           split; [reflexivity|]. split; [auto|]. split; [cbn [length]; lia|]. split; [discriminate|].
           cbn [linked]. rewrite !(set_node_other _ hd _ a1) by auto. rewrite set_node_same. cbn [n_term n_cl n_path n_next].
           split; [reflexivity|]. split; [auto|]. split; [reflexivity|]. split; [reflexivity|]. split; [reflexivity|].
           eapply linked_ext; [|exact Lk]. intros x Hx. inversion Nd; subst.
           rewrite !set_node_other; [reflexivity| | |].
           ++ intros ->. contradiction.
           ++ apply Ha1. right; exact Hx.
           ++ intros ->. contradiction.
        -- rewrite (proj2 (Z.eqb_neq k j)) by auto. eapply one_list_ext; [| |apply C1].
           ++ reflexivity.
           ++ intros x Hx. pose proof (C3 j x Hx). cbn [nodes].
              assert (x <> hd) by (intros ->; apply Hjk; eapply C4; [exact Hx|rewrite Ech; left; reflexivity]).
              rewrite !set_node_other; auto. intros ->. contradiction.
      * intros j. destruct (Z.eqb_spec j k); [|apply C2]. inversion Nd; subst. constructor.
        -- intros [X|X]; [symmetry in X; revert X; apply Ha1; left; reflexivity|contradiction].
        -- constructor; [|assumption]. intros X. eapply Ha1; [right; exact X|reflexivity].
      * intros j a. destruct (Z.eqb_spec j k) as [->|].
        -- intros [<-|[<-|X]]; [right; right; apply (C3 k); rewrite Ech; left; reflexivity|right; left; reflexivity|].
           right. right. apply (C3 k). rewrite Ech. right; exact X.
        -- intros X. right. right. eapply C3; eauto.
      * intros j j' a. destruct (Z.eqb_spec j k) as [->|], (Z.eqb_spec j' k) as [->|]; auto.
        -- intros [X|[X|X]] Y.
           ++ apply (C4 k j' a); [rewrite Ech; left; exact X|exact Y].
           ++ subst a. apply C3 in Y. contradiction.
           ++ apply (C4 k j' a); [rewrite Ech; right; exact X|exact Y].
        -- intros Y [X|[X|X]].
           ++ apply (C4 j k a); [exact Y|rewrite Ech; left; exact X].
           ++ subst a. apply C3 in Y. contradiction.
           ++ apply (C4 j k a); [exact Y|rewrite Ech; right; exact X].
        -- apply C4.
      * intros j e [X|X]; [injection X as -> _; split; assumption|eapply C5; eauto].
Qed.

Lemma list_walk len used h l k n : lists len used h l -> is_slot len k -> (length (under k h) <= n)%nat ->
  hashlist_len l k = Z.of_nat (length (under k h)) /\ walk n l (hashlist_start l k) = Some (under k h) /\
  (under k h <> [] -> hashlist_start l k <> 0).
Proof.
  intros R [Hk1 Hk2] Hn. destruct (lists_inv _ _ _ _ R) as (Hv&ch&C1&_). specialize (C1 k).
  unfold hashlist_len, hashlist_start. rewrite Hv. destruct (Z.leb_spec len k); [lia|]. destruct (Z.ltb_spec k 1); [lia|]. cbn [orb].
  destruct (ch k) as [|hd addrs]; cbn [one_list] in C1.
  - destruct C1 as (->&->). rewrite Z.eqb_refl. split; [reflexivity|]. split; [destruct n; reflexivity|]. intros X; congruence.
  - destruct C1 as (->&Hd0&Hl&Hne&L). rewrite (proj2 (Z.eqb_neq hd 0) Hd0). split; [exact Hl|]. split; [eapply linked_walk; eauto|].
    intros _. destruct addrs as [|x addrs], (under k h) as [|[[t c] p] E]; cbn [linked] in L; try contradiction; try congruence.
    destruct L as (->&Hx&_). exact Hx.
Qed.

(** * The index *)
Section Index.
  Variable dhash : dblv -> Z.
  Variable ltext : Z -> list Z.
  Variable den : Z -> term.
  Variable len : Z.
  Notation prefhashes := (prefhashes dhash ltext).
  Notation atom_prefs := (atom_prefs dhash ltext).
  Notation store_keys := (store_keys dhash ltext).
  Notation lookup_keys := (lookup_keys dhash ltext).

  Definition keyed (h : list (Z * Z)) : list (Z * (Z * Z * Z)) :=
    flat_map (fun e => map (fun k => (k, (fst e, snd e, 0))) (rev (store_keys (den (fst e))))) h.

  Lemma add_keys_lists w cl : forall keys l used h addrs l', lists len used h l ->
    NoDup (flat addrs) -> (forall a, In a (flat addrs) -> a <> 0 /\ ~ In a used) ->
    add_keys keys l w cl addrs = LOk l' ->
    exists used', lists len used' (map (fun k => (k, (w, cl, 0))) (rev keys) ++ h) l' /\
                  forall a, In a used' -> In a (flat addrs) \/ In a used.
  Proof.
    induction keys as [|k keys IH]; intros l used h addrs l' R Nd Fr E.
    - cbn in E. injection E as <-. exists used. split; [exact R|auto].
    - destruct addrs as [|[a0 a1] addrs]; cbn [add_keys] in E; [discriminate|].
      destruct (add_hashlist l k w cl 0 a0 a1) as [l1| |] eqn:E1; try discriminate.
      cbn in Nd. inversion Nd as [|? ? N1 N2]; subst. inversion N2 as [|? ? N3 N4]; subst.
      destruct (Fr a0 ltac:(cbn; auto)) as [A1 A2]. destruct (Fr a1 ltac:(cbn; auto)) as [B1 B2].
      assert (A0 : a0 <> a1) by (intros ->; apply N1; left; reflexivity).
      pose proof (l_add len used h l k w cl 0 a0 a1 l1 R A1 B1 A0 A2 B2 E1) as R1.
      destruct (IH l1 _ _ addrs l' R1 N4) as (used'&R'&U').
      + intros a Ha. split; [apply Fr; cbn; auto|]. intros [<-|[<-|X]].
        * apply N1. right; exact Ha.
        * apply N3. exact Ha.
        * destruct (Fr a ltac:(cbn; auto)). contradiction.
      + exact E.
      + exists used'. split.
        * cbn [rev]. rewrite map_app. rewrite <- app_assoc. exact R'.
        * intros a Ha. destruct (U' a Ha) as [X|[X|[X|X]]]; [left; cbn; auto|left; cbn; auto|left; cbn; auto|auto].
  Qed.

  Lemma index_lists used h l : index dhash ltext den len used h l ->
    exists used', lists len used' (keyed h) l /\ forall a, In a used' -> In a used.
  Proof.
    induction 1 as [nd|used h l w cl addrs l' R IH Nd Fr E].
    - exists []. split; [constructor|auto].
    - destruct IH as (u&L&U). unfold store_atom in E.
      assert (Fr' : forall a, In a (flat addrs) -> a <> 0 /\ ~ In a u).
      { intros a Ha. destruct (Fr a Ha) as [X Y]. split; [exact X|]. intros Z. apply Y, U, Z. }
      destruct (add_keys_lists w cl (store_keys (den w)) l u (keyed h) addrs l' L Nd Fr' E) as (u'&L'&U').
      exists u'. split; [unfold keyed; cbn [flat_map fst snd]; exact L'|]. intros a Ha. apply in_or_app. destruct (U' a Ha); auto.
  Qed.

  (** Symbols of a term in preorder up to the first variable, at most three. *)
  Fixpoint syms (t : term) : list cst * bool :=
    match t with
    | TVar _ => ([], false)
    | TCst c => ([c], true)
    | TRec fs => (fix go (l : list term) : list cst * bool :=
                    match l with
                    | [] => ([], true)
                    | t :: l => match syms t with
                                | (a, true) => match go l with (b, r) => (a ++ b, r) end
                                | r => r
                                end
                    end) fs
    end.
  Fixpoint syms_list (l : list term) : list cst * bool :=
    match l with
    | [] => ([], true)
    | t :: l => match syms t with
                | (a, true) => match syms_list l with (b, r) => (a ++ b, r) end
                | r => r
                end
    end.
  Lemma syms_rec fs : syms (TRec fs) = syms_list fs.
  Proof. induction fs as [|f fs IH]; [reflexivity|]. cbn [syms syms_list]. destruct (syms f) as [a []]; [|reflexivity]. cbn in IH. rewrite IH. reflexivity. Qed.

  Fixpoint prefs_of (cs : list cst) (ps : list Z) : list Z :=
    match cs with
    | [] => ps
    | c :: cs =>
        match ps with
        | [] => prefs_of cs [basehash dhash ltext c]
        | [p0] => prefs_of cs [p0; hash_add (basehash dhash ltext c) p0]
        | p0 :: p1 :: _ => [p0; p1; hash_add (basehash dhash ltext c) p1]
        end
    end.
  Lemma prefs_app : forall a b ps, (length a + length ps <= 2)%nat -> prefs_of (a ++ b) ps = prefs_of b (prefs_of a ps).
  Proof.
    induction a as [|c a IH]; intros b ps H; [reflexivity|]. cbn [List.app prefs_of]. destruct ps as [|p0 [|p1 ps]]; cbn in H |- *.
    - apply IH. cbn. lia.
    - apply IH. cbn. lia.
    - lia.
  Qed.
  Lemma prefs_app3 : forall a b ps, (3 <= length a + length ps)%nat -> a <> [] -> (length ps <= 2)%nat -> prefs_of (a ++ b) ps = prefs_of a ps.
  Proof.
    induction a as [|c a IH]; intros b ps H Hne Hp; [congruence|]. cbn [List.app prefs_of]. destruct ps as [|p0 [|p1 ps]]; cbn in H, Hp |- *.
    - apply IH; [cbn; lia| |cbn; lia]. intros ->. cbn in H. lia.
    - apply IH; [cbn; lia| |cbn; lia]. intros ->. cbn in H. lia.
    - reflexivity.
  Qed.
  Lemma prefs_len : forall a ps, (length ps <= 2)%nat -> length (prefs_of a ps) = Nat.min 3 (length a + length ps).
  Proof.
    induction a as [|c a IH]; intros ps Hp; cbn [prefs_of]; [cbn [length Nat.add]; lia|]. destruct ps as [|p0 [|p1 [|]]]; cbn [length] in *; try lia.
    - rewrite IH by (cbn; lia). cbn [length]. lia.
    - rewrite IH by (cbn; lia). cbn [length]. lia.
  Qed.

  (** The prefix hashes are those of the symbols. *)
  Lemma prefhashes_syms : forall t ps, (length ps <= 2)%nat ->
    snd (prefhashes t ps) = prefs_of (fst (syms t)) ps /\
    (fst (prefhashes t ps) = true <-> snd (syms t) = true /\ (length (fst (syms t)) + length ps <= 2)%nat).
  Proof.
    induction t as [i|c|fs IH] using term_ind'; intros ps Hp.
    - cbn. split; [reflexivity|]. split; [discriminate|intros [X _]; discriminate].
    - cbn [HashModel.prefhashes syms fst snd]. destruct ps as [|p0 [|p1 [|]]]; cbn in Hp; try lia; cbn; (split; [reflexivity|]); split; intros; auto with arith; try discriminate; lia.
    - rewrite syms_rec. cbn [HashModel.prefhashes]. revert ps Hp. induction IH as [|t fs Ht _ IHf]; intros ps Hp.
      + cbn. split; [reflexivity|]. tauto.
      + cbn [pref_loop syms_list]. destruct (Ht ps Hp) as [A B].
        destruct (HashModel.prefhashes dhash ltext t ps) as [go ps'] eqn:E. cbn [fst snd] in A, B. destruct (syms t) as [a r] eqn:Es. cbn [fst snd] in A, B.
        destruct go.
        * destruct (proj1 B eq_refl) as [-> Hl]. assert (Hp' : (length ps' <= 2)%nat) by (rewrite A, prefs_len by auto; lia).
          destruct (IHf ps' Hp') as [C D]. destruct (syms_list fs) as [b r'] eqn:El. cbn [fst snd] in *. split.
          -- rewrite C, A. symmetry. apply prefs_app. exact Hl.
          -- rewrite D, A, prefs_len, app_length by auto. split; intros [X Y]; (split; [exact X|]); lia.
        * cbn [fst snd]. destruct r.
          -- assert (Hl : (3 <= length a + length ps)%nat).
             { destruct (Nat.le_gt_cases (length a + length ps) 2); [|lia]. assert (false = true) by (apply B; auto). discriminate. }
             destruct (syms_list fs) as [b r'] eqn:El. cbn [fst snd]. split.
             ++ rewrite A. symmetry. apply prefs_app3; auto. intros ->. cbn in Hl. lia.
             ++ split; [discriminate|]. rewrite app_length. intros [_ X]. lia.
          -- cbn [fst snd]. split; [exact A|]. split; [discriminate|intros [X _]; discriminate].
  Qed.

  Lemma atom_prefs_syms t : atom_prefs t = prefs_of (firstn 3 (fst (syms t))) [].
  Proof.
    unfold HashModel.atom_prefs. destruct (prefhashes_syms t [] ltac:(cbn; lia)) as [-> _].
    rewrite <- (firstn_skipn 3 (fst (syms t))) at 1. set (a := firstn 3 (fst (syms t))).
    destruct (Nat.le_gt_cases (length (fst (syms t))) 3).
    - rewrite skipn_all2 by auto. rewrite app_nil_r. reflexivity.
    - apply prefs_app3; [unfold a; rewrite firstn_length; cbn [length]; lia| |cbn; lia]. unfold a.
      destruct (fst (syms t)); cbn in *; [lia|discriminate].
  Qed.

  (** An instance has the symbols of the term, and maybe more. *)
  Lemma syms_inst s : forall t, exists b, fst (syms (app s t)) = fst (syms t) ++ b /\
    (snd (syms t) = true -> b = [] /\ snd (syms (app s t)) = true).
  Proof.
    induction t as [i|c|fs IH] using term_ind'.
    - exists (fst (syms (app s (TVar i)))). cbn. split; [reflexivity|discriminate].
    - exists []. cbn. auto.
    - cbn [app]. rewrite !syms_rec. induction IH as [|t fs Ht _ IHf].
      + exists []. cbn. auto.
      + cbn [map syms_list]. destruct Ht as (b&Hb&Hb2). destruct (syms t) as [a r] eqn:Es. destruct (syms (app s t)) as [a' r'] eqn:Es'.
        cbn [fst snd] in *. destruct r.
        * destruct (Hb2 eq_refl) as [-> ->]. rewrite app_nil_r in Hb. subst a'.
          destruct IHf as (b&Hb&Hb3). destruct (syms_list fs) as [c rc]. destruct (syms_list (map (app s) fs)) as [c' rc']. cbn [fst snd] in *.
          exists b. subst c'. split; [apply app_assoc|exact Hb3].
        * destruct r'; [destruct (syms_list (map (app s) fs)) as [c' rc']|]; cbn [fst snd].
          -- exists (b ++ c'). subst a'. split; [symmetry; apply app_assoc|discriminate].
          -- exists b. split; [exact Hb|discriminate].
  Qed.

  Lemma common_syms x y : common_instance x y ->
    exists z, (exists b, z = fst (syms x) ++ b) /\ exists b, z = fst (syms y) ++ b.
  Proof.
    intros (s&s'&E). destruct (syms_inst s x) as (b&H1&_). destruct (syms_inst s' y) as (b'&H2&_). rewrite E in H1.
    exists (fst (syms (app s' y))). split; eauto.
  Qed.

  (** Some key is both stored under and looked up. *)
  Lemma keys_meet x y : has_symbol x -> has_symbol y -> common_instance x y ->
    exists k, In k (store_keys y) /\ In k (lookup_keys x).
  Proof.
    intros (cx&tx&->) (cy&ty&->) C. apply common_syms in C as (z&(bx&Hx)&(by_&Hy)).
    unfold HashModel.store_keys, HashModel.lookup_keys. rewrite !atom_prefs_syms.
    rewrite (syms_rec (TCst cx :: tx)), (syms_rec (TCst cy :: ty)) in *. cbn [syms_list syms fst snd] in *.
    destruct (syms_list tx) as [ax rx], (syms_list ty) as [ay ry]. cbn [fst snd List.app] in *.
    subst z. injection Hy as Hc Hy. subst cy.
    (* three cases each *)
    destruct ay as [|y1 [|y2 ay]].
    - cbn [firstn prefs_of length]. eexists. split; [left; reflexivity|]. cbn [map].
      destruct ax as [|x1 [|x2 ax]]; cbn [firstn prefs_of length Nat.eqb nth Z.of_nat]; left; reflexivity.
    - destruct ax as [|x1 [|x2 ax]]; cbn [List.app] in Hy.
      + cbn [firstn prefs_of length map Nat.eqb nth Z.of_nat]. eexists. split; [left; reflexivity|]. right. left. reflexivity.
      + injection Hy as -> _. cbn [firstn prefs_of length map Nat.eqb nth Z.of_nat]. eexists. split; [right; left; reflexivity|]. right. left. reflexivity.
      + injection Hy as -> _. cbn [firstn prefs_of length map Nat.eqb nth Z.of_nat]. eexists. split; [right; left; reflexivity|]. right. left. reflexivity.
    - destruct ax as [|x1 [|x2 ax]]; cbn [List.app] in Hy.
      + cbn [firstn prefs_of length map Nat.eqb nth Z.of_nat]. eexists. split; [left; reflexivity|]. right. right. left. reflexivity.
      + injection Hy as -> _. cbn [firstn prefs_of length map Nat.eqb nth Z.of_nat]. eexists. split; [right; left; reflexivity|]. right. right. left. reflexivity.
      + injection Hy as -> -> _. cbn [firstn prefs_of length map Nat.eqb nth Z.of_nat]. eexists. split; [right; right; left; reflexivity|]. right. right. left. reflexivity.
  Qed.

  Lemma lookup_all_spec n used h l : lists len used h l -> (forall k, length (under k h) <= n)%nat ->
    forall keys r, lookup_all n l keys = Some r -> forall k e, In k keys -> In (k, e) h -> In e r.
  Proof.
    intros R Hn. induction keys as [|k0 keys IH]; intros r E k e Hk Hin; [destruct Hk|]. cbn [lookup_all] in E.
    destruct (lists_inv _ _ _ _ R) as (_&ch&_&_&_&_&Hs).
    assert (Ue : forall j, In (j, e) h -> In e (under j h)).
    { intros j Hj. unfold under. apply in_map_iff. exists (j, e). split; [reflexivity|]. apply filter_In. split; [exact Hj|apply Z.eqb_refl]. }
    assert (Hz : Z.eqb (hashlist_len l k0) 0 = true -> forall e', ~ In (k0, e') h).
    { intros Z e' He'. pose proof (list_walk len used h l k0 n R (Hs _ _ He') (Hn k0)) as (A&_).
      apply Z.eqb_eq in Z. rewrite A in Z. assert (X : In e' (under k0 h)).
      { unfold under. apply in_map_iff. exists (k0, e'). split; [reflexivity|]. apply filter_In. split; [exact He'|apply Z.eqb_refl]. }
      destruct (under k0 h); [destruct X|cbn in Z; lia]. }
    destruct (hashlist_len l k0 =? 0) eqn:E0.
    - destruct Hk as [->|Hk]; [destruct (Hz eq_refl _ Hin)|eauto].
    - destruct (hashlist_start l k0 =? 0); [discriminate|]. destruct (walk n l (hashlist_start l k0)) as [w|] eqn:Ew; [|discriminate].
      destruct (lookup_all n l keys) as [rs|] eqn:Er; [|discriminate]. injection E as <-. apply in_or_app. destruct Hk as [->|Hk].
      + left. destruct (list_walk len used h l k n R (Hs _ _ Hin) (Hn k)) as (_&B&_). rewrite B in Ew. injection Ew as <-. auto.
      + right. eapply IH; eauto.
  Qed.

  Lemma under_len k (h : list (Z * (Z * Z * Z))) : (length (under k h) <= length h)%nat.
  Proof. unfold under. rewrite map_length. induction h as [|e h IH]; cbn; [lia|]. destruct (_ =? _); cbn; lia. Qed.
  Lemma store_keys_len t : (length (store_keys t) <= 3)%nat.
  Proof. unfold HashModel.store_keys. rewrite map_length, atom_prefs_syms, prefs_len by (cbn; lia). rewrite firstn_length. cbn [length]. lia. Qed.
  Lemma keyed_len h : (length (keyed h) <= 3 * length h)%nat.
  Proof.
    induction h as [|e h IH]; cbn [keyed flat_map]; [cbn; lia|]. rewrite app_length, map_length, rev_length.
    pose proof (store_keys_len (den (fst e))). fold (keyed h). cbn [length]. lia.
  Qed.

  Lemma candidates_complete n used h l x w cl r : index dhash ltext den len used h l -> (3 * length h <= n)%nat ->
    In (w, cl) h -> has_symbol x -> has_symbol (den w) -> common_instance x (den w) ->
    candidates dhash ltext n l x = Some r -> In (w, cl, 0) r.
  Proof.
    intros R Hn Hin Hx Hy C E. destruct (index_lists used h l R) as (u&L&_). destruct (keys_meet x (den w) Hx Hy C) as (k&K1&K2).
    unfold candidates in E. eapply (lookup_all_spec n u (keyed h) l L); [|exact E|exact K2|].
    - intros j. pose proof (under_len j (keyed h)). pose proof (keyed_len h). lia.
    - unfold keyed. apply in_flat_map. exists (w, cl). split; [exact Hin|]. cbn [fst snd]. apply in_map_iff. exists k. split; [reflexivity|].
      apply in_rev in K1. exact K1.
  Qed.

  (** The look-up goes through if the keys are slots. *)
  Lemma candidates_defined n used h l x : index dhash ltext den len used h l -> (3 * length h <= n)%nat ->
    (forall k, In k (lookup_keys x) -> is_slot len k) -> exists r, candidates dhash ltext n l x = Some r.
  Proof.
    intros R Hn. destruct (index_lists used h l R) as (u&L&_). unfold candidates. generalize (lookup_keys x) as keys.
    assert (Hu : forall k, (length (under k (keyed h)) <= n)%nat).
    { intros k. pose proof (under_len k (keyed h)). pose proof (keyed_len h). lia. }
    induction keys as [|k keys IH]; intros Hs; [exists []; reflexivity|]. cbn [lookup_all].
    destruct IH as (rs&Ers); [intros k' Hk'; apply Hs; right; exact Hk'|]. rewrite Ers.
    destruct (list_walk len u (keyed h) l k n L (Hs k (or_introl eq_refl)) (Hu k)) as (A&B&C). rewrite A, B.
    destruct (Z.eqb_spec (Z.of_nat (length (under k (keyed h)))) 0) as [|Hnz]; [eauto|].
    destruct (Z.eqb_spec (hashlist_start l k) 0) as [Ez|]; [|eauto]. exfalso. apply C; [|exact Ez]. intros X. rewrite X in Hnz. cbn in Hnz. lia.
  Qed.
  (** Everything offered was stored. *)
  Lemma candidates_stored n used h l x r w cl p : index dhash ltext den len used h l ->
    (3 * length h <= n)%nat -> candidates dhash ltext n l x = Some r -> In (w, cl, p) r -> In (w, cl) h.
  Proof.
    intros R Hn E Hin. destruct (index_lists used h l R) as (u&L&_). unfold candidates in E. revert r E Hin. generalize (lookup_keys x) as keys.
    assert (Hu : forall k, (length (under k (keyed h)) <= n)%nat).
    { intros k. pose proof (under_len k (keyed h)). pose proof (keyed_len h). lia. }
    induction keys as [|k keys IH]; intros r E Hin; cbn [lookup_all] in E; [injection E as <-; destruct Hin|].
    destruct (hashlist_len l k =? 0) eqn:E0; [eauto|]. destruct (hashlist_start l k =? 0) eqn:E1; [discriminate|].
    destruct (walk n l (hashlist_start l k)) as [wl|] eqn:Ew; [|discriminate]. destruct (lookup_all n l keys) as [rs|] eqn:Er; [|discriminate].
    injection E as <-. apply in_app_or in Hin as [Hin|Hin]; [|eauto].
    assert (Sl : is_slot len k).
    { destruct (lists_inv _ _ _ _ L) as (Hv&_). unfold hashlist_start in E1. rewrite Hv in E1. unfold is_slot.
      destruct (Z.leb_spec len k); [discriminate|]. destruct (Z.ltb_spec k 1); [discriminate|]. lia. }
    destruct (list_walk len u (keyed h) l k n L Sl (Hu k)) as (_&B&_). rewrite B in Ew. injection Ew as <-.
    unfold under in Hin. apply in_map_iff in Hin as ([k' e]&Ee&Hf). cbn in Ee. subst e. apply filter_In in Hf as [Hf _].
    unfold keyed in Hf. apply in_flat_map in Hf as ([w' cl']&Hh&Hm). cbn [fst snd] in Hm. apply in_map_iff in Hm as (k''&X&_).
    injection X as _ -> -> _. exact Hh.
  Qed.
End Index.

(** * An atom without usable keys *)
Lemma huah_keys dhash ltext o : ltext o = [104; 117; 97; 104] ->
  exists k1 k2, store_keys dhash ltext (TRec [TCst (CLong o); TCst (CImm (890820 * 8 + 3))]) = [k1; k2] /\ 1 <= k1 < 1000000 /\ k2 < 1 /\
    exists j0 j2, lookup_keys dhash ltext (TRec [TCst (CLong o); TCst (CImm (890820 * 8 + 3))]) = [j0; k2; j2] /\ 1 <= j0 < 1000000.
Proof.
  intros H. unfold store_keys, lookup_keys, atom_prefs. cbn [prefhashes pref_loop snd fst].
  assert (B1 : basehash dhash ltext (CLong o) = 1 + Z.rem (neg_fix32 (str_hash [104; 117; 97; 104])) 999997) by (unfold basehash; cbn [value_hash]; rewrite H; reflexivity).
  assert (B2 : basehash dhash ltext (CImm (890820 * 8 + 3)) = 1 + Z.rem (neg_fix32 (int_hash 890820)) 999997) by reflexivity.
  rewrite B1, B2. cbn [length map Nat.eqb nth].
  eexists _, _. split; [reflexivity|]. split; [vm_compute; split; congruence|]. split; [vm_compute; congruence|].
  eexists _, _. split; [reflexivity|]. vm_compute; split; congruence.
Qed.
Lemma huah_exits dhash ltext den o w : ltext o = [104; 117; 97; 104] ->
  den w = TRec [TCst (CLong o); TCst (CImm (890820 * 8 + 3))] ->
  (exists k, In k (lookup_keys dhash ltext (den w)) /\ ~ is_slot 1000000 k) /\
  forall used h l n cl addrs, index dhash ltext den 1000000 used h l -> (2 <= length addrs)%nat ->
    NoDup (flat addrs) -> (forall a, In a (flat addrs) -> a <> 0) ->
    store_atom dhash ltext den l w cl addrs = LBadHash /\ candidates dhash ltext n l (den w) = None.
Proof.
  intros Ht Hd. destruct (huah_keys dhash ltext o Ht) as (k1&k2&Ks&K1&K2&j0&j2&Kl&J0). rewrite Hd. split.
  - exists k2. rewrite Kl. split; [right; left; reflexivity|]. unfold is_slot. lia.
  - intros used h l n cl addrs R Hlen Nd Hz. destruct (index_lists dhash ltext den 1000000 used h l R) as (u&L&_).
    destruct (lists_inv _ _ _ _ L) as (Hv&_). split.
    + unfold store_atom. rewrite Hd, Ks. destruct addrs as [|[a0 a1] [|[a2 a3] addrs]]; cbn in Hlen; try lia. cbn [add_keys].
      assert (A : exists l', add_hashlist l k1 w cl 0 a0 a1 = LOk l' /\ vlen l' = vlen l).
      { unfold add_hashlist. rewrite Hv. destruct (Z.leb_spec 1000000 k1); [lia|]. destruct (Z.ltb_spec k1 1); [lia|]. cbn [orb].
        rewrite (proj2 (Z.eqb_neq a0 0) (Hz a0 ltac:(cbn; auto))), (proj2 (Z.eqb_neq a1 0) (Hz a1 ltac:(cbn; auto))). cbn [orb].
        destruct (heads l k1 =? 0); eexists; split; reflexivity. }
      destruct A as (l'&->&Hv'). unfold add_hashlist. rewrite Hv', Hv. destruct (Z.ltb_spec k2 1); [|lia]. rewrite orb_true_r. reflexivity.
    + unfold candidates. rewrite Kl. cbn [lookup_all].
      assert (B : hashlist_len l k2 = -1 /\ hashlist_start l k2 = 0).
      { unfold hashlist_len, hashlist_start. destruct (Z.ltb_spec k2 1); [|lia]. rewrite orb_true_r. split; reflexivity. }
      destruct B as [B1 B2]. rewrite B1, B2. cbn [Z.eqb]. destruct (hashlist_len l j0 =? 0); [reflexivity|].
      destruct (hashlist_start l j0 =? 0); [reflexivity|]. destruct (walk n l (hashlist_start l j0)); reflexivity.
Qed.

(** * Which keys there are; storing succeeds *)
Lemma norm_is_slot x : w32 x <> - 2 ^ 31 -> is_slot 1000000 (hash_norm x).
Proof.
  intros H. unfold hash_norm, is_slot. pose proof (w32_in x). rewrite (w32_id (Z.abs (w32 x))) by lia.
  pose proof (Z.rem_bound_pos (Z.abs (w32 x)) 999998 ltac:(lia) ltac:(lia)). lia.
Qed.
Lemma add_keys_defined w cl : forall keys l addrs, (length keys <= length addrs)%nat ->
  (forall a, In a (flat addrs) -> a <> 0) -> (forall k, In k keys -> is_slot (vlen l) k) ->
  exists l', add_keys keys l w cl addrs = LOk l'.
Proof.
  induction keys as [|k keys IH]; intros l addrs Hl Hz Hk; [exists l; reflexivity|].
  destruct addrs as [|[a0 a1] addrs]; [cbn in Hl; lia|]. cbn [add_keys].
  assert (A : exists l1, add_hashlist l k w cl 0 a0 a1 = LOk l1 /\ vlen l1 = vlen l).
  { pose proof (Hz a0 ltac:(cbn; auto)) as Z0. pose proof (Hz a1 ltac:(cbn; auto)) as Z1.
    destruct (Hk k ltac:(cbn; auto)) as [K1 K2]. unfold add_hashlist.
    destruct (Z.leb_spec (vlen l) k); [lia|]. destruct (Z.ltb_spec k 1); [lia|]. cbn [orb].
    destruct (Z.eqb_spec a0 0); [contradiction|]. destruct (Z.eqb_spec a1 0); [contradiction|].
    destruct (heads l k =? 0); cbn [orb]; eexists; split; reflexivity. }
  destruct A as (l1&E&V). rewrite E. apply IH.
  - cbn in Hl. lia.
  - intros a Ha. apply Hz. cbn; auto.
  - intros k' Hk'. rewrite V. apply Hk. right; exact Hk'.
Qed.
Lemma store_defined dhash ltext den len used h l w cl addrs : index dhash ltext den len used h l ->
  (forall k, In k (store_keys dhash ltext (den w)) -> is_slot len k) ->
  (length (store_keys dhash ltext (den w)) <= length addrs)%nat -> (forall a, In a (flat addrs) -> a <> 0) ->
  exists l', store_atom dhash ltext den l w cl addrs = LOk l'.
Proof.
  intros R Hk Hl Hz. destruct (index_lists dhash ltext den len used h l R) as (u&L&_).
  unfold store_atom. apply add_keys_defined; [exact Hl|exact Hz|].
  assert (V : vlen l = len). { clear - L. induction L as [|? ? l0 k ? ? ? a0 a1 l1 ? IH ? ? ? ? ? E]; [reflexivity|].
    unfold add_hashlist in E. destruct ((vlen l0 <=? k) || (k <? 1)); [discriminate|].
    destruct (heads l0 k =? 0).
    - destruct ((a0 =? 0) || (a1 =? 0)); [discriminate|]. injection E as <-. exact IH.
    - destruct (a1 =? 0); [discriminate|]. injection E as <-. exact IH. }
  rewrite V. exact Hk.
Qed.
Lemma keys_are_slots dhash ltext t k : In k (store_keys dhash ltext t) \/ In k (lookup_keys dhash ltext t) ->
  is_slot 1000000 k \/ k = -487941.
Proof.
  assert (N : forall x, is_slot 1000000 (hash_norm x) \/ hash_norm x = -487941).
  { intros x. destruct (Z.eq_dec (w32 x) (- 2 ^ 31)) as [E|E]; [right; unfold hash_norm; rewrite E; reflexivity|left; apply norm_is_slot, E]. }
  intros [H|H]; unfold store_keys, lookup_keys in H; apply in_map_iff in H as (p&<-&_); apply N.
Qed.
