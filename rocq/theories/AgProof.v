(** The duplicate cache, the loop over tuples and runs. *)
From Coq Require Import List ZArith Bool Lia Permutation.
From Verif Require Import Terms AgModel AgSpec AgBase.
Import ListNotations.
Open Scope Z_scope.

(** ** The table *)
Lemma nth_upd (c : entries) q k p : (q < length c)%nat ->
  nth p (firstn q c ++ Some k :: skipn (S q) c) None = if Nat.eqb p q then Some k else nth p c None.
Proof.
  intros Hq. destruct (Nat.eqb_spec p q) as [->|N].
  - rewrite app_nth2; rewrite firstn_length, Nat.min_l by lia; [|lia]. rewrite Nat.sub_diag. reflexivity.
  - destruct (Nat.lt_ge_cases p q) as [L|L].
    + rewrite app_nth1 by (rewrite firstn_length; lia).
      rewrite <- (firstn_skipn q c) at 2. rewrite app_nth1; auto. rewrite firstn_length; lia.
    + rewrite app_nth2; rewrite firstn_length, Nat.min_l by lia; [|lia].
      replace (p - q)%nat with (S (p - S q)) by lia. cbn [nth].
      rewrite <- (firstn_skipn (S q) c) at 2. rewrite app_nth2; rewrite firstn_length, Nat.min_l by lia; [reflexivity|lia].
Qed.
Lemma length_upd (c : entries) q k : (q < length c)%nat -> length (firstn q c ++ Some k :: skipn (S q) c) = length c.
Proof. intros H. rewrite app_length. cbn [length]. rewrite firstn_length, skipn_length. lia. Qed.

Definition nxt (c : entries) (s : nat) : nat := if Nat.eqb (S s) (length c) then O else S s.
Lemma nxt_lt c s : (s < length c)%nat -> (nxt c s < length c)%nat.
Proof. unfold nxt. destruct (Nat.eqb_spec (S s) (length c)); lia. Qed.

Lemma seek_false k c c' : forall n s, (s < length c)%nat -> seek n s k c = Some (false, c') ->
  exists q, (q < length c)%nat /\ nth q c None = None /\ c' = firstn q c ++ Some k :: skipn (S q) c.
Proof.
  induction n as [|n IH]; intros s Hs; cbn [seek]; [discriminate|]. destruct (nth s c None) as [k'|] eqn:E.
  - destruct (key_eq_dec k' k); [discriminate|]. apply IH. apply nxt_lt; auto.
  - intros X. injection X as <-. exists s. auto.
Qed.
Lemma seek_true k c c' : forall n s, (s < length c)%nat -> seek n s k c = Some (true, c') -> c' = c /\ In (Some k) c.
Proof.
  induction n as [|n IH]; intros s Hs; cbn [seek]; [discriminate|]. destruct (nth s c None) as [k'|] eqn:E; [|discriminate].
  destruct (key_eq_dec k' k) as [->|]; [|apply IH; apply nxt_lt; auto].
  intros X. injection X as <-. split; auto. rewrite <- E. apply nth_In; auto.
Qed.
(** A key that is found stays found when another slot is filled. *)
Lemma seek_keep k c q k0 : (q < length c)%nat -> nth q c None = None -> forall n s,
  seek n s k c = Some (true, c) ->
  seek n s k (firstn q c ++ Some k0 :: skipn (S q) c) = Some (true, firstn q c ++ Some k0 :: skipn (S q) c).
Proof.
  intros Hq Eq. induction n as [|n IH]; intros s; cbn [seek]; [discriminate|]. rewrite nth_upd by auto.
  destruct (Nat.eqb_spec s q) as [->|N]; [rewrite Eq; discriminate|].
  destruct (nth s c None) as [k'|] eqn:E; [|discriminate]. destruct (key_eq_dec k' k); [auto|].
  rewrite length_upd by auto. apply IH.
Qed.
(** A key just put in is found. *)
Lemma seek_put k c c' : forall n s, (s < length c)%nat -> seek n s k c = Some (false, c') -> seek n s k c' = Some (true, c').
Proof.
  induction n as [|n IH]; intros s Hs H; [discriminate|]. destruct (seek_false k c c' (S n) s Hs H) as (q&Hq&Eq&Ec).
  cbn [seek] in *. destruct (nth s c None) as [k'|] eqn:E.
  - destruct (key_eq_dec k' k) as [|N]; [discriminate|].
    assert (E' : nth s c' None = Some k').
    { rewrite Ec, nth_upd by auto. destruct (Nat.eqb_spec s q) as [->|]; [congruence|auto]. }
    rewrite E'. destruct (key_eq_dec k' k); [contradiction|].
    assert (L : length c' = length c) by (rewrite Ec; apply length_upd; auto). rewrite L. apply IH; auto.
    apply nxt_lt; auto.
  - injection H as <-. rewrite nth_upd, Nat.eqb_refl by auto. destruct (key_eq_dec k k); [reflexivity|contradiction].
Qed.
(** The search gives up only when the table is full. *)
Lemma seek_full k c : forall n s, (s < length c)%nat -> seek n s k c = None ->
  forall i, (i < n)%nat -> nth ((s + i) mod length c) c None <> None.
Proof.
  induction n as [|n IH]; intros s Hs H i Hi; [lia|]. cbn [seek] in H. destruct (nth s c None) as [k'|] eqn:E; [|discriminate].
  destruct (key_eq_dec k' k); [discriminate|]. destruct i as [|i].
  - rewrite Nat.add_0_r, Nat.mod_small by auto. congruence.
  - assert (M : ((s + S i) mod length c = (nxt c s + i) mod length c)%nat).
    { unfold nxt. destruct (Nat.eqb_spec (S s) (length c)) as [L|L].
      - replace (s + S i)%nat with (i + 1 * length c)%nat by lia. rewrite Nat.mod_add by lia. reflexivity.
      - f_equal. lia. }
    rewrite M. apply IH; [apply nxt_lt; auto|exact H|lia].
Qed.
Definition occupied (c : entries) : nat := length (filter (fun e => match e with Some _ => true | None => false end) c).
Lemma full_occupied k c s : (s < length c)%nat -> seek (length c) s k c = None -> occupied c = length c.
Proof.
  intros Hs H. assert (A : forall p, (p < length c)%nat -> nth p c None <> None).
  { intros p Hp. pose proof (seek_full k c _ s Hs H) as F.
    destruct (Nat.lt_ge_cases p s) as [L|L].
    - specialize (F (length c + p - s)%nat ltac:(lia)). replace (s + (length c + p - s))%nat with (p + 1 * length c)%nat in F by lia.
      rewrite Nat.mod_add, Nat.mod_small in F by lia. auto.
    - specialize (F (p - s)%nat ltac:(lia)). replace (s + (p - s))%nat with p in F by lia. rewrite Nat.mod_small in F by lia. auto. }
  clear H Hs. unfold occupied. induction c as [|e c IH]; auto. cbn [filter].
  pose proof (A 0%nat ltac:(simpl; lia)) as H0. simpl in H0. destruct e; [|contradiction]. cbn [length]. f_equal. apply IH.
  intros p Hp. apply (A (S p)). simpl. lia.
Qed.
Lemma occupied_upd (c : entries) q k : (q < length c)%nat -> nth q c None = None ->
  occupied (firstn q c ++ Some k :: skipn (S q) c) = S (occupied c).
Proof.
  revert q. induction c as [|e c IH]; intros q Hq E; [simpl in Hq; lia|]. destruct q as [|q].
  - simpl in E. subst e. reflexivity.
  - simpl in E, Hq. specialize (IH q ltac:(lia) E).
    change (firstn (S q) (e :: c) ++ Some k :: skipn (S (S q)) (e :: c)) with (e :: (firstn q c ++ Some k :: skipn (S q) c)).
    unfold occupied in *. destruct e; cbn [filter length]; [f_equal|]; exact IH.
Qed.
Lemma in_upd (c : entries) q k k' : (q < length c)%nat -> In (Some k') (firstn q c ++ Some k :: skipn (S q) c) -> k' = k \/ In (Some k') c.
Proof.
  intros Hq H. apply in_app_or in H as [H|[H|H]]; [right|left; congruence|right].
  - rewrite <- (firstn_skipn q c). apply in_or_app. auto.
  - rewrite <- (firstn_skipn (S q) c). apply in_or_app. auto.
Qed.

Section Run.
  Variable code : term -> comp.
  Variable numc : cst -> option num.
  Variable answer : term -> bool.
  Variable fo : fops.
  Variable slot_of : key -> nat.
  Variable cf : conf.
  Variable ask : list key -> key -> option (bool * bool).
  Variable on got : bool.
  Notation probe1 := (probe1 slot_of cf ask).
  Notation attempt := (attempt slot_of cf ask).
  Notation generate := (generate code numc answer fo slot_of cf ask on got).
  Notation run := (run code numc answer fo slot_of cf ask on got).

  Definition size : nat := Z.to_nat cache_size.
  Lemma size_pos : (0 < size)%nat. Proof. unfold size, cache_size. lia. Qed.
  Definition gave_up (k : key) : Prop := exists log, ask log k = None.
  Definition home (c : entries) (k : key) : nat := (slot_of k mod length c)%nat.
  Definition ready (g : gst) : Prop := saturated g = true \/ exists c, cache g = Some c.
  Record cinv (g : gst) (log : list key) : Prop := {
    i_done : done g = Z.of_nat (length log);
    i_lim : 0 < global_limit cf -> done g <= global_limit cf;
    i_size : forall c, cache g = Some c -> length c = size;
    i_in : forall c k, cache g = Some c -> In (Some k) c -> In k log \/ gave_up k;
    i_found : forall c k, saturated g = false -> cache g = Some c -> In k log -> seek (length c) (home c k) k c = Some (true, c);
    i_new : saturated g = false -> cache g = None -> log = [];
    i_nodup : saturated g = false -> NoDup log;
    i_occ : (forall log' k, ask log' k <> None) -> forall c, cache g = Some c -> (occupied c <= length log)%nat }.

  Lemma home_lt c k : length c = size -> (home c k < length c)%nat.
  Proof. intros H. apply Nat.mod_upper_bound. rewrite H. pose proof size_pos. lia. Qed.

  (** One look into the cache. *)
  Lemma seen_spec k g log : cinv g log -> ready g ->
    match seen slot_of k g with
    | (true, g') => g' = g /\ (In k log \/ gave_up k)
    | (false, g') =>
        done g' = done g /\ glob g' = glob g /\ proof g' = proof g /\ ready g' /\
        (saturated g = true -> g' = g) /\
        (saturated g' = false -> saturated g = false /\ ~ In k log) /\
        (forall c, cache g' = Some c -> length c = size) /\
        (forall c k', cache g' = Some c -> In (Some k') c -> k' = k \/ In k' log \/ gave_up k') /\
        (forall c k', saturated g' = false -> cache g' = Some c -> k' = k \/ In k' log -> seek (length c) (home c k') k' c = Some (true, c)) /\
        (saturated g' = false -> cache g' <> None) /\
        ((forall log' k, ask log' k <> None) -> forall c, cache g' = Some c -> (occupied c <= S (length log))%nat) /\
        (saturated g' = true -> saturated g = false -> (forall log' k, ask log' k <> None) -> (size <= length log)%nat)
    end.
  Proof.
    intros I R. unfold seen. destruct (cache g) as [c|] eqn:Ec.
    - destruct (saturated g) eqn:Es.
      + split; [auto|]. split; [auto|]. split; [auto|]. split; [auto|]. split; [auto|]. split; [congruence|].
        split; [intros; eapply i_size; eauto|]. split; [intros c' k' E H; right; eapply i_in; eauto|].
        split; [congruence|]. split; [congruence|]. split; [intros T c' E; pose proof (i_occ _ _ I T c' E); lia|congruence].
      + pose proof (i_size _ _ I c Ec) as Hl.
        assert (Hh : (home c k < length c)%nat) by (apply home_lt; auto).
        change (slot_of k mod length c)%nat with (home c k).
        destruct (seek (length c) (home c k) k c) as [[b c']|] eqn:E.
        * destruct b.
          -- destruct (seek_true _ _ _ _ _ Hh E) as [-> Hin]. split; [|eapply i_in; eauto].
             destruct g; simpl in *; congruence.
          -- pose proof (seek_put _ _ _ _ _ Hh E) as Hput. destruct (seek_false _ _ _ _ _ Hh E) as (q&Hq&Eq&->).
             cbn [done glob proof saturated cache]. split; [auto|]. split; [auto|]. split; [auto|].
             split; [right; eexists; reflexivity|]. split; [congruence|].
             split; [intros _; split; auto; intros H; rewrite (i_found _ _ I c k Es Ec H) in E; discriminate|].
             split; [intros c1 X; injection X as <-; rewrite length_upd; auto|].
             split; [intros c1 k' X H; injection X as <-; apply in_upd in H as [->|H]; auto; right; eapply i_in; eauto|].
             split; [|split; [congruence|split; [|congruence]]].
             ++ intros c1 k' _ X H. injection X as <-. unfold home. rewrite length_upd by auto. destruct H as [->|H].
                ** exact Hput.
                ** apply seek_keep; auto. apply (i_found _ _ I c k' Es Ec H).
             ++ intros T c1 X. injection X as <-. rewrite occupied_upd by auto. pose proof (i_occ _ _ I T c Ec). lia.
        * cbn [done glob proof saturated cache]. split; [auto|]. split; [auto|]. split; [auto|]. split; [left; auto|].
          split; [congruence|]. split; [congruence|]. split; [intros c1 X; injection X as <-; auto|].
          split; [intros c1 k' X H; injection X as <-; right; eapply i_in; eauto|]. split; [congruence|]. split; [congruence|].
          split; [intros T c1 X; injection X as <-; pose proof (i_occ _ _ I T c Ec); lia|].
          intros _ _ T. rewrite <- Hl, <- (full_occupied k c (home c k)); auto. apply (i_occ _ _ I T c Ec).
    - destruct R as [R|[c R]]; [|congruence].
      split; [auto|]. split; [auto|]. split; [auto|]. split; [left; auto|]. split; [auto|]. split; [congruence|].
      split; [congruence|]. split; [congruence|]. split; [congruence|]. split; [congruence|]. split; congruence.
  Qed.

  Definition total : Prop := forall log k, ask log k <> None.
  Definition room : Prop := total /\ global_limit cf <= cache_size.

  (** One probe. *)
  Lemma probe1_spec k g log b g' log' : cinv g log -> ready g -> probe1 k g log = (b, g', log') ->
    cinv g' log' /\ ready g' /\ (saturated g' = false -> saturated g = false) /\ glob g' = glob g /\
    (log' = log /\ b = false \/ log' = k :: log) /\
    (done g < global_limit cf -> In k log' \/ gave_up k) /\
    (room -> saturated g = false -> saturated g' = false) /\
    (cache g <> None -> cache g' <> None).
  Proof.
    intros I R. unfold probe1. destruct (Z.leb_spec (global_limit cf) (done g)) as [L|L].
    { intros X. injection X as <- <- <-. split; [auto|]. split; [auto|]. split; [auto|]. split; [auto|]. split; [auto|]. split; [lia|]. split; auto. }
    pose proof (seen_spec k g log I R) as H. destruct (seen slot_of k g) as [sb g1] eqn:Es. destruct sb.
    { destruct H as [-> H]. intros X. injection X as <- <- <-. split; [auto|]. split; [auto|]. split; [auto|]. split; [auto|]. split; [auto|]. split; [auto|]. split; auto. }
    destruct H as (Hd&Hg&Hp&Hr&Hsame&Hs&Hsz&Hin&Hf&Hnn&Hocc&Hfull).
    assert (Hcn : cache g <> None -> cache g1 <> None).
    { unfold seen in Es. destruct (cache g) as [c|] eqn:Ec; [|congruence]. intros _. destruct (saturated g); [congruence|].
      destruct (seek _ _ _ _) as [[b0 c0]|]; inversion Es; subst; simpl; congruence. }
    assert (Hroom : room -> saturated g = false -> saturated g1 = false).
    { intros [T G] S. destruct (saturated g1) eqn:E; auto. pose proof (Hfull eq_refl S T) as F.
      pose proof (i_done _ _ I). unfold size in F. unfold cache_size in *. lia. }
    destruct (ask log k) as [[kept pr]|] eqn:Ea.
    - intros X. injection X as <- <- <-. cbn [saturated glob cache]. split; [|split; [|split; [|split; [|split; [|split; [|split]]]]]]; auto.
      + split; cbn [done saturated cache]; auto.
        * rewrite Hd, (i_done _ _ I). cbn [length]. lia.
        * intros _. lia.
        * intros c k' X H. destruct (Hin c k' X H) as [->|[H'|H']]; simpl; auto.
        * intros c k' S X [<-|H]; apply Hf; auto.
        * intros S X. destruct (Hnn S X).
        * intros S. destruct (Hs S) as [S' N]. constructor; auto. apply (i_nodup _ _ I S').
      + intros S. apply Hs; auto.
      + intros _. left. left. auto.
    - assert (U : gave_up k) by (exists log; auto).
      intros X. injection X as <- <- <-. split; [|split; [|split; [|split; [|split; [|split; [|split]]]]]]; auto.
      + split; auto.
        * rewrite Hd. apply (i_done _ _ I).
        * intros _. lia.
        * intros c k' X H. destruct (Hin c k' X H) as [->|[H'|H']]; auto.
        * intros S X. destruct (Hnn S X).
        * intros S. destruct (Hs S) as [S' N]. apply (i_nodup _ _ I S').
        * intros T. destruct (T log k Ea).
      + intros S. apply Hs; auto.
  Qed.

  Record lgood (l0 l : lst) (ks : list key) : Prop := {
    g_inv : cinv (lg l) (llog l);
    g_ready : ready (lg l);
    g_sat : saturated (lg l) = false -> saturated (lg l0) = false;
    g_room : room -> saturated (lg l0) = false -> saturated (lg l) = false;
    g_cache : cache (lg l0) <> None -> cache (lg l) <> None;
    g_new : exists new, llog l = new ++ llog l0 /\ (forall k, In k new -> In k ks) /\ (NoDup ks -> NoDup new) /\
      Z.of_nat (length new) <= ltried l - ltried l0 /\ 0 <= lkept l - lkept l0 <= Z.of_nat (length new);
    g_tried : ltried l <= Z.max (ltried l0) (probe_limit cf);
    g_kept : lkept l <= Z.max (lkept l0) (keep_limit cf);
    g_all : stop cf l = false -> forall k, In k ks -> In k (llog l) \/ gave_up k }.

  Lemma attempt_spec : forall ks l, cinv (lg l) (llog l) -> ready (lg l) -> lgood l (attempt ks l) ks.
  Proof.
    induction ks as [|k ks IH]; intros l I R; cbn [AgModel.attempt].
    - split; auto; try lia.
      + exists []. split; [reflexivity|]. split; [auto|]. split; [auto|]. simpl. lia.
      + intros _ k [].
    - destruct (stop cf l) eqn:Est.
      + split; auto; try lia; [|congruence].
        exists []. split; [reflexivity|]. split; [intros k' []|]. split; [constructor|]. simpl. lia.
      + unfold stop in Est. apply orb_false_elim in Est as [Est Ep]. apply orb_false_elim in Est as [Est Ek].
        apply orb_false_elim in Est as [Et Eg]. rewrite Z.leb_gt in Et, Eg, Ek.
        destruct (probe1 k (lg l) (llog l)) as [[b g] log] eqn:E.
        destruct (probe1_spec k (lg l) (llog l) b g log I R E) as (I1&R1&S1&G1&C1&D1&M1&N1).
        set (l1 := {| lg := g; llog := log; ltried := ltried l + 1; lkept := if b then lkept l + 1 else lkept l |}).
        specialize (IH l1 I1 R1). destruct IH as [A B C C2 C3 (new&N&Nin&Nnd&Nlen&Nk) T K All].
        cbn [lg llog ltried lkept l1] in *.
        assert (Hmono : forall x, In x log -> In x (llog (attempt ks l1))) by (intros x Hx; rewrite N; apply in_or_app; auto).
        split; auto.
        * destruct C1 as [[E1 E2]|E1].
          -- exists new. rewrite N, E1. split; [auto|]. split; [intros x Hx; right; auto|].
             split; [intros Hn; inversion Hn; auto|]. subst b. simpl in *. lia.
          -- exists (new ++ [k]). rewrite N, E1, <- app_assoc. split; [auto|].
             split; [intros x Hx; apply in_app_or in Hx as [Hx|[<-|[]]]; simpl; auto|].
             split; [|rewrite app_length; simpl; destruct b; simpl in *; lia].
             intros Hn. inversion Hn as [|? ? Hk Hn']; subst. apply NoDup_Add with (a := k) (l := new).
             ++ rewrite <- (app_nil_r new) at 1. apply Add_app.
             ++ split; auto.
        * lia.
        * destruct b; lia.
        * intros Hs x [<-|Hx]; [|apply All; auto]. destruct (D1 Eg); auto.
  Qed.

  (** ** The schedule *)
  Lemma same_vars_spec a b : reflect (a = b) (same_vars a b).
  Proof. unfold same_vars. destruct (list_eq_dec Z.eq_dec a b); constructor; auto. Qed.
  Lemma used_fronts_in s : forall after before vs, In vs (used_fronts cf s before after) ->
    In vs after /\ Z.of_nat (length vs) <= max_vars cf /\ bindable s vs = false.
  Proof.
    induction after as [|x after IH]; intros before vs H; [destruct H|]. cbn [used_fronts] in H.
    destruct (Z.ltb_spec (max_vars cf) (Z.of_nat (length x))) as [L|L]; cbn [orb] in H.
    - destruct (IH _ _ H) as (A&B). split; [right; auto|auto].
    - destruct (bindable s x) eqn:Eb; cbn [orb] in H; [destruct (IH _ _ H) as (A&B); split; [right; auto|auto]|].
      destruct (existsb _ before); [destruct (IH _ _ H) as (A&B); split; [right; auto|auto]|].
      destruct H as [<-|H]; [simpl; auto|]. destruct (IH _ _ H) as (A&B). split; [right; auto|auto].
  Qed.
  Lemma used_fronts_nodup s : forall after before, NoDup after -> NoDup (used_fronts cf s before after).
  Proof.
    induction after as [|x after IH]; intros before H; [constructor|]. inversion H; subst. cbn [used_fronts].
    destruct (_ || _ || _); auto. constructor; auto. intros Hx. apply used_fronts_in in Hx as (A&_). auto.
  Qed.
  Lemma used_fronts_all s : forall after before vs, NoDup (before ++ after) -> In vs after ->
    Z.of_nat (length vs) <= max_vars cf -> bindable s vs = false -> In vs (used_fronts cf s before after).
  Proof.
    induction after as [|x after IH]; intros before vs Hn Hin Hl Hb; [destruct Hin|]. cbn [used_fronts].
    assert (Hn' : NoDup ((before ++ [x]) ++ after)) by (rewrite <- app_assoc; exact Hn).
    destruct Hin as [->|Hin].
    - destruct (Z.ltb_spec (max_vars cf) (Z.of_nat (length vs))) as [L|_]; [lia|]. cbn [orb]. rewrite Hb. cbn [orb].
      destruct (existsb (fun p => same_vars p vs) before) eqn:E; [|left; auto].
      exfalso. apply existsb_exists in E as (p&Hp&Ep). destruct (same_vars_spec p vs) as [->|]; [|discriminate].
      apply NoDup_remove_2 in Hn. apply Hn. apply in_or_app. auto.
    - destruct (_ || _ || _); [|right]; apply IH; auto.
  Qed.

  Lemma nth_num_inj cs i j : NoDup (map cnum cs) -> (i < length cs)%nat -> (j < length cs)%nat -> nth_num cs i = nth_num cs j -> i = j.
  Proof.
    intros N Hi Hj E. unfold nth_num in E. rewrite <- !(map_nth cnum) in E.
    eapply NoDup_nth with (d := cnum no_cand); eauto; rewrite map_length; auto.
  Qed.
  Lemma NoDup_flat (A B : Type) (f : A -> list B) : forall l, NoDup l -> (forall x, In x l -> NoDup (f x)) ->
    (forall x y z, In x l -> In y l -> In z (f x) -> In z (f y) -> x = y) -> NoDup (flat_map f l).
  Proof.
    induction l as [|x l IH]; intros N H D; [constructor|]. inversion N; subst. cbn [flat_map].
    assert (X : forall (a b : list B), NoDup a -> NoDup b -> (forall z, In z a -> ~ In z b) -> NoDup (a ++ b)).
    { induction a as [|u a IHa]; intros b Na Nb Hd; [auto|]. inversion Na; subst. simpl. constructor.
      - intros Hu. apply in_app_or in Hu as [Hu|Hu]; [auto|]. apply (Hd u); simpl; auto.
      - apply IHa; auto. intros z Hz. apply Hd. simpl. auto. }
    apply X.
    - apply H; simpl; auto.
    - apply IH; auto; intros; [apply H; simpl; auto|eapply D; simpl; eauto].
    - intros z Hz Hz'. apply in_flat_map in Hz' as (y&Hy&Hzy). assert (x = y) by (eapply D; simpl; eauto). subst. auto.
  Qed.
  Lemma NoDup_map_inj (A B : Type) (f : A -> B) : forall l, NoDup l -> (forall x y, In x l -> In y l -> f x = f y -> x = y) -> NoDup (map f l).
  Proof.
    induction l as [|x l IH]; intros N H; [constructor|]. inversion N; subst. simpl. constructor.
    - intros Hx. apply in_map_iff in Hx as (y&Ey&Hy). assert (y = x) by (apply H; simpl; auto). subst. auto.
    - apply IH; auto. intros; apply H; simpl; auto.
  Qed.
  Lemma pairs_in n sum p : In p (pairs_of_sum n sum) <-> (fst p < n)%nat /\ (snd p < n)%nat /\ (fst p + snd p = sum)%nat.
  Proof.
    unfold pairs_of_sum. rewrite in_flat_map. destruct p as [a b]. cbn [fst snd]. split.
    - intros (i&Hi&H). apply in_seq in Hi. destruct (Nat.leb_spec i sum); cbn [andb] in H; [|destruct H].
      destruct (Nat.ltb_spec (sum - i) n); [|destruct H]. destruct H as [H|[]]. injection H as <- <-. lia.
    - intros (Ha&Hb&Hs). exists a. split; [apply in_seq; lia|].
      destruct (Nat.leb_spec a sum); [|lia]. cbn [andb]. destruct (Nat.ltb_spec (sum - a) n); [|lia].
      left. f_equal. lia.
  Qed.
  Lemma pairs_nodup n sum : NoDup (pairs_of_sum n sum).
  Proof.
    apply NoDup_flat.
    - apply seq_NoDup.
    - intros i _. destruct (_ && _); repeat constructor; auto.
    - intros i j z _ _ Hi Hj. destruct (_ && _) in Hi; [|destruct Hi]. destruct (_ && _) in Hj; [|destruct Hj].
      destruct Hi as [Hi|[]], Hj as [Hj|[]]. congruence.
  Qed.
  Lemma tuples_nodup cs n vs : NoDup (map cnum cs) -> (n <= length cs)%nat -> NoDup (tuples cf cs n vs).
  Proof.
    intros N L. unfold tuples. destruct vs as [|v [|w [|? ?]]]; try constructor.
    - apply NoDup_map_inj; [apply seq_NoDup|]. intros i j Hi Hj E. apply in_seq in Hi. apply in_seq in Hj.
      injection E as E. apply (nth_num_inj cs); auto; lia.
    - destruct (2 <=? mode cf); [|constructor]. apply NoDup_flat; [apply seq_NoDup| |].
      + intros sum _. apply NoDup_map_inj; [apply pairs_nodup|]. intros p q Hp Hq E.
        apply pairs_in in Hp. apply pairs_in in Hq. injection E as E1 E2.
        apply (nth_num_inj cs) in E1; auto; try lia. apply (nth_num_inj cs) in E2; auto; try lia.
        destruct p, q; simpl in *; congruence.
      + intros s1 s2 z _ _ H1 H2. apply in_map_iff in H1 as (p&Ep&Hp). apply in_map_iff in H2 as (q&Eq&Hq).
        apply pairs_in in Hp. apply pairs_in in Hq. rewrite <- Ep in Eq. injection Eq as E1 E2.
        apply (nth_num_inj cs) in E1; auto; try lia. apply (nth_num_inj cs) in E2; auto; try lia.
  Qed.
  Definition shown (cs : list cand) : nat := Z.to_nat (Z.min (Z.of_nat (length cs)) (cand_limit cf)).
  Lemma shown_le cs : (shown cs <= length cs)%nat. Proof. unfold shown. lia. Qed.
  Lemma schedule_nodup p s cs : NoDup (map cnum cs) -> NoDup (fronts s) -> NoDup (schedule cf p s cs).
  Proof.
    intros N F. unfold schedule. fold (shown cs). apply NoDup_flat.
    - apply used_fronts_nodup; auto.
    - intros vs _. apply NoDup_map_inj; [apply tuples_nodup; auto using shown_le|]. intros x y _ _ E. congruence.
    - intros x y z _ _ Hx Hy. apply in_map_iff in Hx as (t&Et&_). apply in_map_iff in Hy as (u&Eu&_). congruence.
  Qed.
  Lemma nth_num_some cs i : (i < length cs)%nat -> exists x, nth_error cs i = Some x /\ cnum x = nth_num cs i.
  Proof.
    intros H. destruct (nth_error cs i) as [x|] eqn:E; [|apply nth_error_None in E; lia]. exists x. split; auto.
    unfold nth_num. erewrite nth_error_nth; eauto.
  Qed.
  Lemma schedule_in p s cs k : In k (schedule cf p s cs) ->
    exists vs ns, k = (p, vs, ns) /\ In vs (fronts s) /\ Z.of_nat (length vs) <= max_vars cf /\ length ns = length vs /\
      (length vs = 1%nat \/ length vs = 2%nat /\ 2 <= mode cf) /\
      forall n, In n ns -> exists i x, Z.of_nat i < cand_limit cf /\ nth_error cs i = Some x /\ cnum x = n.
  Proof.
    intros H. unfold schedule in H. fold (shown cs) in H. apply in_flat_map in H as (vs&Hv&H). apply in_map_iff in H as (ns&<-&Hn).
    apply used_fronts_in in Hv as (A&B&_). exists vs, ns. split; auto. split; auto. split; auto.
    assert (X : forall i, (i < shown cs)%nat -> exists j x, Z.of_nat j < cand_limit cf /\ nth_error cs j = Some x /\ cnum x = nth_num cs i).
    { intros i Hi. destruct (nth_num_some cs i) as (x&Ex&En); [pose proof (shown_le cs); lia|]. exists i, x. split; auto. unfold shown in Hi. lia. }
    unfold tuples in Hn. destruct vs as [|v [|w [|? ?]]]; try destruct Hn.
    - apply in_map_iff in Hn as (i&<-&Hi). apply in_seq in Hi. split; [reflexivity|]. split; [auto|].
      intros n [<-|[]]. apply X. lia.
    - destruct (Z.leb_spec 2 (mode cf)) as [M|M]; [|destruct Hn]. apply in_flat_map in Hn as (sum&_&Hn).
      apply in_map_iff in Hn as (q&<-&Hq). apply pairs_in in Hq. split; [reflexivity|]. split; [right; auto|].
      intros n [<-|[<-|[]]]; apply X; lia.
  Qed.
  Lemma schedule_all p s cs vs ns : NoDup (fronts s) -> In vs (fronts s) -> Z.of_nat (length vs) <= max_vars cf -> bindable s vs = false ->
    (length vs = 1%nat \/ length vs = 2%nat /\ 2 <= mode cf) -> length ns = length vs ->
    (forall n, In n ns -> exists i x, Z.of_nat i < cand_limit cf /\ nth_error cs i = Some x /\ cnum x = n) ->
    In (p, vs, ns) (schedule cf p s cs).
  Proof.
    intros N Hv Hl Hb Hk Hn H. unfold schedule. fold (shown cs). apply in_flat_map. exists vs.
    split; [apply used_fronts_all; auto|]. apply in_map.
    assert (X : forall n, In n ns -> exists i, (i < shown cs)%nat /\ nth_num cs i = n).
    { intros n Hin. destruct (H n Hin) as (i&x&Hi&Ex&En). exists i.
      assert (L : (i < length cs)%nat) by (apply nth_error_Some; congruence). split; [unfold shown; lia|].
      unfold nth_num. erewrite nth_error_nth; eauto. }
    unfold tuples. destruct vs as [|v [|w [|? ?]]]; cbn [length] in Hk, Hn; try lia.
    - destruct ns as [|a [|? ?]]; try discriminate. destruct (X a) as (i&Hi&<-); [simpl; auto|].
      apply in_map_iff. exists i. split; auto. apply in_seq. lia.
    - destruct ns as [|a [|b [|? ?]]]; try discriminate. destruct (X a) as (i&Hi&<-); [simpl; auto|].
      destruct (X b) as (j&Hj&<-); [simpl; auto|].
      destruct Hk as [Hk|[_ Hk]]; [discriminate|]. destruct (Z.leb_spec 2 (mode cf)); [|lia].
      apply in_flat_map. exists (i + j)%nat. split; [apply in_seq; lia|]. apply in_map_iff. exists (i, j). split; auto.
      apply pairs_in. simpl. lia.
  Qed.

  (** ** Candidates *)
  Lemma fold_add_good : forall gl l, good l -> good (fold_left (fun l c => add_value (cnum c) 70 l) gl l).
  Proof. induction gl as [|c gl IH]; intros l H; simpl; auto. apply IH. apply add_value_good; auto. Qed.
  Lemma fold_add_ext : forall gl l, ext l (fold_left (fun l c => add_value (cnum c) 70 l) gl l).
  Proof. induction gl as [|c gl IH]; intros l; simpl; [apply ext_refl|]. eapply ext_trans; [apply add_value_ext|apply IH]. Qed.
  Lemma add_mid_good l : good l -> good (add_mid fo l).
  Proof. unfold add_mid. destruct (first_real l) as [[x r]|]; auto. destruct (first_real r) as [[y ?]|]; auto using add_value_opt_good. Qed.
  Lemma add_mid_ext l : ext l (add_mid fo l).
  Proof. unfold add_mid. destruct (first_real l) as [[x r]|]; auto using ext_refl. destruct (first_real r) as [[y ?]|]; auto using add_value_opt_ext, ext_refl. Qed.
  Lemma complete_spec l gl cs gl' : good l -> complete fo l gl = (cs, gl') -> good cs /\ in_order cs /\ ext l cs /\
    ((length cs < 32)%nat -> offered (NInt 0) 80 cs /\ offered (NInt 1) 80 cs /\ offered (NInt (-1)) 80 cs).
  Proof.
    intros H. unfold complete. set (gl1 := fold_left _ (add_mid fo l) gl). set (l2 := fold_left _ gl1 (add_mid fo l)).
    intros X. injection X as <- _.
    set (l3 := add_value (NInt 0) 80 l2). set (l4 := add_value (NInt 1) 80 l3). set (l5 := add_value (NInt (-1)) 80 l4).
    pose proof (add_value_ext (NInt 0) 80 l2) as E3. pose proof (add_value_ext (NInt 1) 80 l3) as E4.
    pose proof (add_value_ext (NInt (-1)) 80 l4) as E5. fold l3 in E3. fold l4 in E4. fold l5 in E5.
    pose proof (perm_ext _ _ (sort_values_perm l5)) as E6.
    split; [|split; [apply sort_values_in_order|split]].
    - eapply perm_good; [apply sort_values_perm|]. repeat apply add_value_good. apply fold_add_good, add_mid_good; auto.
    - eapply ext_trans; [apply add_mid_ext|]. eapply ext_trans; [apply fold_add_ext|]. fold l2.
      eauto using ext_trans.
    - rewrite (Permutation_length (sort_values_perm l5)). intros L.
      destruct E3 as [A3 B3], E4 as [A4 B4], E5 as [A5 B5], E6 as [A6 B6].
      split; [apply A6, A5, A4, add_value_offers; fold l3; lia|].
      split; [apply A6, A5, add_value_offers; fold l4; lia|]. apply A6, add_value_offers. fold l5. lia.
  Qed.
End Run.
