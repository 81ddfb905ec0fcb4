(** Result sets are lists; double hashing is a set *)
From Coq Require Import ZArith Znumtheory Lia List Bool Arith.
From Verif Require Import RsModel.
Import ListNotations.
Open Scope Z_scope.

(** ** Pages *)
Definition elems (s : rset) : list Z := concat (pages s).
Fixpoint wfp (l : list (list Z)) : Prop :=
  match l with
  | [] => True
  | p :: r => (1 <= length p <= 63)%nat /\ (r <> [] -> length p = 63%nat) /\ wfp r
  end.
Definition WF (s : rset) : Prop := wfp (pages s) /\ Forall (fun x => x <> 0) (elems s) /\ count s = length (elems s).
Definition rem (s : rset) : list Z :=
  match rpage s with None => [] | Some p => skipn (rpidx s) (nth p (pages s) []) ++ concat (skipn (S p) (pages s)) end.
Definition COK (s : rset) : Prop :=
  match rpage s with None => True | Some p => (p < length (pages s))%nat /\ (rpidx s <= length (nth p (pages s) []))%nat /\ (rpidx s < 63)%nat end.

Lemma wfp_nth : forall l p, wfp l -> (p < length l)%nat -> (1 <= length (nth p l []) <= 63)%nat /\ ((S p < length l)%nat -> length (nth p l []) = 63%nat).
Proof.
  induction l as [|q r IH]; intros p W H; [cbn in H; lia|]. destruct W as (A & B & C). destruct p as [|p]; cbn [nth].
  - split; [exact A|]. intros X. apply B. intros ->. cbn in X. lia.
  - cbn in H. destruct (IH p C ltac:(lia)) as [X Y]. split; [exact X|]. intros Z1. apply Y. cbn in Z1. lia.
Qed.
Lemma skipn_nth {A} (d : A) : forall l n, (n < length l)%nat -> skipn n l = nth n l d :: skipn (S n) l.
Proof. induction l as [|a l IH]; intros n H; [cbn in H; lia|]. destruct n as [|n]; [reflexivity|]. cbn in H. cbn [skipn nth]. rewrite IH by lia. reflexivity. Qed.
Lemma rewind_ok s : WF s -> WF (rewind s) /\ COK (rewind s) /\ rem (rewind s) = elems s /\ pages (rewind s) = pages s /\ count (rewind s) = count s.
Proof.
  intros W. unfold rewind. split; [exact W|]. unfold COK, rem. cbn [pages rpage rpidx count]. destruct (pages s) as [|p r] eqn:E.
  - unfold elems. rewrite E. split; [exact Logic.I|]. split; [reflexivity|]. split; reflexivity.
  - split; [cbn; lia|]. unfold elems. rewrite E. split; [reflexivity|]. split; reflexivity.
Qed.
Lemma fetch_ok s : WF s -> COK s ->
  let '(x, s') := fetch s in
  pages s' = pages s /\ count s' = count s /\
  match rem s with [] => x = 0 | y :: r => x = y /\ x <> 0 /\ rem s' = r /\ COK s' end.
Proof.
  intros (W & N & _) C. unfold fetch, rem, COK in *. destruct (rpage s) as [p|] eqn:Rp; [|split; [reflexivity|]; split; reflexivity].
  destruct C as (C1 & C2 & C3). destruct (wfp_nth _ _ W C1) as [L1 L2].
  set (pg := nth p (pages s) []) in *. destruct (Nat.eq_dec (rpidx s) (length pg)) as [Q|Q].
  - assert (Z0 : nth (rpidx s) pg 0 = 0) by (apply nth_overflow; lia). rewrite Z0. cbn [Z.eqb]. split; [reflexivity|]. split; [reflexivity|].
    rewrite skipn_all2 by lia. rewrite skipn_all2; [cbn; reflexivity|]. destruct (Nat.le_gt_cases (length (pages s)) (S p)) as [X|X]; [exact X|]. specialize (L2 X). lia.
  - assert (Lt : (rpidx s < length pg)%nat) by lia.
    assert (Nz : nth (rpidx s) pg 0 <> 0).
    { rewrite Forall_forall in N. apply N. unfold elems. apply in_concat. exists pg. split; [apply nth_In, C1|apply nth_In, Lt]. }
    rewrite (skipn_nth 0 pg (rpidx s) Lt). destruct (Z.eqb_spec (nth (rpidx s) pg 0) 0); [contradiction|]. unfold PAGESIZE.
    destruct (Nat.leb_spec 63 (S (rpidx s))) as [F|F]; cbn [pages count rpage rpidx app].
    + split; [reflexivity|]. split; [reflexivity|]. split; [reflexivity|]. split; [exact n|]. rewrite (skipn_all2 pg) by lia. cbn [app].
      destruct (Nat.ltb_spec (S p) (length (pages s))) as [G|G].
      * split; [rewrite (skipn_nth [] (pages s) (S p) G); reflexivity|]. split; [exact G|]. lia.
      * split; [rewrite skipn_all2 by lia; reflexivity|exact Logic.I].
    + split; [reflexivity|]. split; [reflexivity|]. split; [reflexivity|]. split; [exact n|]. split; [reflexivity|]. fold pg. split; [exact C1|]. lia.
Qed.
Lemma wf_pages s s' : pages s' = pages s -> count s' = count s -> WF s -> WF s'.
Proof. unfold WF, elems. intros -> ->. tauto. Qed.

Lemma wfp_snoc_new l x : wfp l -> (l <> [] -> length (last l []) = 63%nat) -> wfp (l ++ [[x]]).
Proof.
  induction l as [|p r IH]; intros W L; [cbn; split; [lia|]; split; [congruence|exact Logic.I]|].
  destruct W as (A & B & C). cbn [app wfp]. split; [exact A|]. split.
  - intros _. destruct r as [|q r]; [apply L; discriminate|apply B; discriminate].
  - apply IH; [exact C|]. intros N. destruct r as [|q r]; [contradiction|]. apply L. discriminate.
Qed.
Lemma wfp_snoc_old l p x : wfp (l ++ [p]) -> (length p < 63)%nat -> wfp (l ++ [p ++ [x]]).
Proof.
  induction l as [|q r IH]; intros W L.
  - cbn in *. rewrite app_length. cbn. split; [lia|]. split; [congruence|exact Logic.I].
  - destruct W as (A & B & C). cbn [app wfp]. split; [exact A|]. split; [|apply IH; assumption].
    intros _. apply B. destruct r; discriminate.
Qed.
Lemma append_ok s x : WF s -> x <> 0 -> WF (append s x) /\ elems (append s x) = elems s ++ [x].
Proof.
  intros (W & N & C) Nx. unfold append, wpidx, PAGESIZE.
  assert (Fin : forall pp rp ri, wfp pp -> concat pp = elems s ++ [x] -> WF (mkR pp rp ri (S (count s))) /\ elems (mkR pp rp ri (S (count s))) = elems s ++ [x]).
  { intros pp rp ri W' E. unfold WF, elems at 1 2 3. cbn [pages count]. rewrite E. split; [|reflexivity]. split; [exact W'|]. split.
    - apply Forall_app. split; [exact N|]. constructor; [exact Nx|constructor].
    - rewrite app_length, C. cbn. lia. }
  unfold elems in *. destruct (Nat.leb_spec 63 (match pages s with [] => 63 | _ => length (last (pages s) []) end)) as [H|H].
  - apply Fin; [|rewrite concat_app; reflexivity]. apply wfp_snoc_new; [exact W|]. intros Ne.
    assert (L : In (last (pages s) []) (pages s)) by (destruct (exists_last Ne) as (l & p & E); rewrite E, last_last; apply in_or_app; right; left; reflexivity).
    destruct (In_nth _ _ [] L) as (i & I1 & I2). destruct (wfp_nth _ _ W I1) as [B _]. rewrite I2 in B.
    destruct (pages s); [contradiction|]. lia.
  - destruct (pages s) as [|q r] eqn:E; [lia|]. rewrite <- E in *. assert (Ne : pages s <> []) by (rewrite E; discriminate).
    destruct (exists_last Ne) as (l & p & E2). rewrite E2 in *. rewrite removelast_last, last_last in *. apply Fin.
    + apply wfp_snoc_old; assumption.
    + rewrite !concat_app. cbn. rewrite !app_nil_r, app_assoc. reflexivity.
Qed.
Lemma create_ok : WF create /\ elems create = [].
Proof. split; [|reflexivity]. split; [exact Logic.I|]. split; [constructor|reflexivity]. Qed.

Fixpoint foldM {St} (f : Z -> St -> res St) (l : list Z) (st : St) : res St :=
  match l with [] => Ok st | x :: r => st <- f x st ;; foldM f r st end.
Lemma iter_ok {St} (f : Z -> St -> res St) : forall n s st, WF s -> COK s -> (length (rem s) < n)%nat -> iter n s f st = foldM f (rem s) st.
Proof.
  induction n as [|n IH]; intros s st W C L; [lia|]. cbn [iter]. pose proof (fetch_ok s W C) as F. destruct (fetch s) as [x s'].
  destruct F as (P & Q & F). destruct (rem s) as [|y r]; [subst x; reflexivity|]. destruct F as (-> & Nz & R & C').
  destruct (Z.eqb_spec y 0); [contradiction|]. cbn [foldM]. destruct (f y st) as [st'| |]; [|reflexivity|reflexivity]. cbn [bind].
  rewrite <- R. apply IH; [exact (wf_pages _ _ P Q W)|exact C'|]. rewrite R. cbn in L. lia.
Qed.
Lemma each_ok {St} (f : Z -> St -> res St) s st : WF s -> each s f st = foldM f (elems s) st.
Proof.
  intros W. destruct (rewind_ok s W) as (W' & C & R & _). unfold each. rewrite iter_ok, R; try assumption; [reflexivity|].
  rewrite R. destruct W as (_ & _ & ->). lia.
Qed.
Lemma find_ok x : forall n s, WF s -> COK s -> (length (rem s) < n)%nat ->
  exists s', find_in n s x = Ok (existsb (Z.eqb x) (rem s), s') /\ WF s' /\ elems s' = elems s.
Proof.
  induction n as [|n IH]; intros s W C L; [lia|]. cbn [find_in]. pose proof (fetch_ok s W C) as F. destruct (fetch s) as [y s'].
  destruct F as (P & Q & F). assert (W' : WF s') by exact (wf_pages _ _ P Q W). assert (E' : elems s' = elems s) by (unfold elems; rewrite P; reflexivity).
  destruct (rem s) as [|z r]; [subst y; exists s'; split; [reflexivity|]; split; assumption|]. destruct F as (-> & Nz & R & C').
  destruct (Z.eqb_spec z 0); [contradiction|]. cbn [existsb]. destruct (Z.eqb_spec x z) as [X|X].
  - exists s'. split; [reflexivity|]. split; assumption.
  - cbn [orb]. rewrite <- R. destruct (IH s' W' C') as (s2 & A & B & D); [rewrite R; cbn in L; lia|]. exists s2. split; [exact A|]. split; [exact B|congruence].
Qed.
Lemma search_ok s x : WF s -> exists s', search s x = Ok (existsb (Z.eqb x) (elems s), s') /\ WF s' /\ elems s' = elems s.
Proof.
  intros W. destruct (rewind_ok s W) as (W' & C & R & P & _). unfold search. rewrite <- R.
  destruct (find_ok x (S (count s)) (rewind s) W' C) as (s' & A & B & D); [rewrite R; destruct W as (_ & _ & ->); lia|].
  exists s'. split; [exact A|]. split; [exact B|]. rewrite D, R. unfold elems. rewrite P. reflexivity.
Qed.
Lemma of_list_ok l : Forall (fun x => x <> 0) l -> WF (of_list l) /\ elems (of_list l) = l.
Proof.
  assert (G : forall l s, WF s -> Forall (fun x => x <> 0) l -> WF (fold_left append l s) /\ elems (fold_left append l s) = elems s ++ l).
  { induction l0 as [|x r IH]; intros s W N; [split; [exact W|rewrite app_nil_r; reflexivity]|]. inversion N; subst. cbn [fold_left].
    destruct (append_ok s x W) as [A B]; [assumption|]. destruct (IH _ A) as [X Y]; [assumption|]. split; [exact X|]. rewrite Y, B, <- app_assoc. reflexivity. }
  intros N. destruct create_ok as [W E]. destruct (G l create W N) as [A B]. split; [exact A|exact B].
Qed.

(** ** Sizes *)
Fixpoint nodiv (n : nat) (p d : Z) : bool :=
  match n with O => true | S n => negb (p mod d =? 0) && nodiv n p (d + 2) end.
Lemma nodiv_ok p : forall n d, nodiv n p d = true -> forall i, (i < n)%nat -> ~ (d + 2 * Z.of_nat i | p).
Proof.
  induction n as [|n IH]; intros d H i L; [lia|]. cbn [nodiv] in H. apply andb_true_iff in H as [H1 H2]. destruct i as [|i].
  - intros D. rewrite Z.add_0_r in D. destruct (Z.eqb_spec (p mod d) 0) as [E|E]; [discriminate|].
    apply E. destruct D as (q & ->). apply Z_mod_mult.
  - specialize (IH (d + 2) H2 i ltac:(lia)). replace (d + 2 * Z.of_nat (S i)) with (d + 2 + 2 * Z.of_nat i) by lia. exact IH.
Qed.
(** No odd divisor up to 2 n + 1 *)
Lemma prime_ok p n : 1 < p -> p mod 2 = 1 -> p < (2 * Z.of_nat n + 2) * (2 * Z.of_nat n + 2) -> nodiv n p 3 = true -> prime p.
Proof.
  intros H1 Odd H2 H3. pose proof (nodiv_ok p n 3 H3) as ND.
  assert (Sm : forall d, 1 < d -> d <= 2 * Z.of_nat n + 1 -> ~ (d | p)).
  { intros d D1 D2 D. assert (Od : d mod 2 = 1).
    { destruct D as (q & ->). rewrite Z.mul_mod in Odd by lia. pose proof (Z.mod_pos_bound d 2 ltac:(lia)).
      destruct (Z.eq_dec (d mod 2) 0) as [E|E]; [rewrite E, Z.mul_0_r in Odd; discriminate|lia]. }
    pose proof (Z.div_mod d 2 ltac:(lia)) as DM. rewrite Od in DM.
    apply (ND (Z.to_nat (d / 2 - 1))); [lia|]. rewrite Z2Nat.id by lia. replace (3 + 2 * (d / 2 - 1)) with d by lia. exact D. }
  apply prime_alt. split; [exact H1|]. intros d [D1 D2] D.
  destruct (Z.le_gt_cases d (2 * Z.of_nat n + 1)) as [L|L]; [exact (Sm d D1 L D)|].
  destruct D as (q & E). assert (Q1 : 1 < q) by nia. assert (Q2 : q <= 2 * Z.of_nat n + 1) by nia.
  apply (Sm q Q1 Q2). exists d. lia.
Qed.
Definition check (p : Z) : bool := 
  let n := Z.to_nat (Z.sqrt p / 2 + 1) in
  (1 <? p) && (p mod 2 =? 1) && (p <? (2 * Z.of_nat n + 2) * (2 * Z.of_nat n + 2)) && nodiv n p 3.
Lemma check_prime p : check p = true -> prime p.
Proof.
  unfold check. intros H. repeat (apply andb_true_iff in H as [H ?]). eapply prime_ok; [apply Z.ltb_lt, H|apply Z.eqb_eq; eassumption|apply Z.ltb_lt; eassumption|eassumption].
Qed.
Lemma primes_prime : Forall prime primes.
Proof.
  assert (C : forallb check primes = true) by (vm_compute; reflexivity). rewrite forallb_forall in C. apply Forall_forall. intros p I. apply check_prime, C, I.
Qed.
Lemma pick_ok w : forall l, l <> [] -> In (pick l w) l /\ (w < pick l w \/ pick l w = last l 0).
Proof.
  induction l as [|p r IH]; intros N; [contradiction|]. destruct r as [|q r]; [cbn; split; [left; reflexivity|right; reflexivity]|].
  change (pick (p :: q :: r) w) with (if p >? w then p else pick (q :: r) w).
  destruct (p >? w) eqn:G; [split; [left; reflexivity|left; apply Z.gtb_lt in G; lia]|].
  destruct (IH ltac:(discriminate)) as [A B]. split; [right; exact A|exact B].
Qed.
Lemma init_ok n : 0 <= n -> match dhash_init n with
  | Ok t => prime (size t) /\ (n < size t \/ size t = 201326611) /\ (forall s, keys t s = 0)
  | Null => 2147483645 < n
  | Fuel => False end.
Proof.
  intros H. unfold dhash_init, dhash_size. destruct (n >? 2147483645) eqn:G; [cbn; apply Z.gtb_lt in G; lia|].
  destruct (pick_ok (2 * n) primes ltac:(discriminate)) as [A B]. pose proof primes_prime as P. rewrite Forall_forall in P. specialize (P _ A).
  pose proof (prime_ge_2 _ P). destruct (Z.eqb_spec (pick primes (2 * n)) 0); [lia|]. cbn [size keys]. split; [exact P|]. split; [|reflexivity].
  destruct B as [B|B]; [left; lia|right; rewrite B; reflexivity].
Qed.
Global Opaque primes.

(** ** Double hashing *)
Lemma nodup_map_in {A B} (f : A -> B) l : (forall a b, In a l -> In b l -> f a = f b -> a = b) -> NoDup l -> NoDup (map f l).
Proof.
  intros H N. induction N as [|x l X N IH]; cbn; constructor.
  - intros I. apply in_map_iff in I as (y & E & I). apply X. rewrite (H x y); [exact I|left; reflexivity|right; exact I|symmetry; exact E].
  - apply IH. intros a b Ia Ib. apply H; right; assumption.
Qed.
Section Dh.
Variable h : Z -> Z.
Definition slot (sz k i : Z) : Z := (h1 h k sz + i * h2 h k sz) mod sz.
Lemma slot_0 sz k : 0 < sz -> slot sz k 0 = h1 h k sz.
Proof. intros H. unfold slot. rewrite Z.mul_0_l, Z.add_0_r. unfold h1. apply Z.mod_mod. lia. Qed.
Lemma slot_rng sz k i : 0 < sz -> 0 <= slot sz k i < sz.
Proof. intros H. apply Z.mod_pos_bound, H. Qed.
Lemma slot_inj sz k i j : prime sz -> 0 <= i < sz -> 0 <= j < sz -> slot sz k i = slot sz k j -> i = j.
Proof.
  intros P Hi Hj E. pose proof (prime_ge_2 _ P) as G. unfold slot in E.
  assert (B2 : 1 <= h2 h k sz < sz) by (unfold h2; destruct (Z.eq_dec sz 2) as [->|N]; [rewrite Z.mod_1_r; lia|pose proof (Z.mod_pos_bound (h k) (sz - 1) ltac:(lia)); lia]).
  assert (D : (sz | (i - j) * h2 h k sz)).
  { apply Z.mod_divide; [lia|]. replace ((i - j) * h2 h k sz) with ((h1 h k sz + i * h2 h k sz) - (h1 h k sz + j * h2 h k sz)) by lia.
    rewrite Zminus_mod, E, Z.sub_diag. apply Z.mod_0_l. lia. }
  apply prime_mult in D; [|exact P]. destruct D as [D|D].
  - apply Z.divide_abs_r in D. destruct (Z.eq_dec (Z.abs (i - j)) 0); [lia|]. apply Z.divide_pos_le in D; lia.
  - apply Z.divide_pos_le in D; lia.
Qed.
Lemma probe_ok t k : forall n i b, 1 <= i -> b = slot (size t) k (i - 1) ->
  (forall i', 0 <= i' < i -> keys t (slot (size t) k i') <> k /\ keys t (slot (size t) k i') <> 0) ->
  exists j, i - 1 <= j < i + Z.of_nat n /\ probe h n t k i b = slot (size t) k j /\
    (forall i', 0 <= i' < j -> keys t (slot (size t) k i') <> k /\ keys t (slot (size t) k i') <> 0) /\
    (keys t (slot (size t) k j) = k \/ keys t (slot (size t) k j) = 0 \/ j = i + Z.of_nat n - 1).
Proof.
  induction n as [|n IH]; intros i b Hi Hb H; cbn [probe].
  - exists (i - 1). split; [lia|]. split; [exact Hb|]. split; [intros i' R; apply H; lia|]. right. right. lia.
  - change ((h1 h k (size t) + i * h2 h k (size t)) mod size t) with (slot (size t) k i).
    destruct ((keys t (slot (size t) k i) =? k) || (keys t (slot (size t) k i) =? 0)) eqn:E.
    + exists i. split; [lia|]. split; [reflexivity|]. split; [exact H|]. apply orb_true_iff in E as [E|E]; apply Z.eqb_eq in E; [left; exact E|right; left; exact E].
    + apply orb_false_iff in E as [E1 E2]. apply Z.eqb_neq in E1, E2.
      destruct (IH (i + 1) (slot (size t) k i)) as (j & A & B & C & D); [lia|f_equal; lia| |].
      { intros i' R. destruct (Z.eq_dec i' i) as [->|N]; [split; assumption|apply H; lia]. }
      exists j. split; [lia|]. split; [exact B|]. split; [exact C|]. destruct D as [D|[D|D]]; [left; exact D|right; left; exact D|right; right; lia].
Qed.
Lemma lookup_ok t k : 1 < size t -> exists j, 0 <= j < size t /\ lookup h t k = slot (size t) k j /\
    (forall i', 0 <= i' < j -> keys t (slot (size t) k i') <> k /\ keys t (slot (size t) k i') <> 0) /\
    (keys t (slot (size t) k j) = k \/ keys t (slot (size t) k j) = 0 \/ j = size t - 1).
Proof.
  intros H. unfold lookup. rewrite <- (slot_0 (size t) k) by lia.
  destruct ((keys t (slot (size t) k 0) =? k) || (keys t (slot (size t) k 0) =? 0)) eqn:E.
  - exists 0. split; [lia|]. split; [reflexivity|]. split; [intros; lia|]. apply orb_true_iff in E as [E|E]; apply Z.eqb_eq in E; [left; exact E|right; left; exact E].
  - apply orb_false_iff in E as [E1 E2]. apply Z.eqb_neq in E1, E2.
    destruct (probe_ok t k (Z.to_nat (size t - 1)) 1 (slot (size t) k 0)) as (j & A & B & C & D); [lia|reflexivity| |].
    { intros i' R. replace i' with 0 by lia. split; assumption. }
    rewrite Z2Nat.id in A, D by lia. exists j. split; [lia|]. split; [exact B|]. split; [exact C|]. destruct D as [D|[D|D]]; [left; exact D|right; left; exact D|right; right; lia].
Qed.

(** The table holds the set of keys [ks] *)
Record DI (t : dhash) (ks : list Z) : Prop := mkDI {
  DP : prime (size t);
  D0 : ~ In 0 ks;
  DV : forall s, 0 <= s < size t -> keys t s <> 0 -> In (keys t s) ks;
  DO : exists occ, (length occ <= length ks)%nat /\ forall s, 0 <= s < size t -> keys t s <> 0 -> In s occ;
  DK : forall k, In k ks -> exists j, 0 <= j < size t /\ keys t (slot (size t) k j) = k /\
         forall i', 0 <= i' < j -> keys t (slot (size t) k i') <> k /\ keys t (slot (size t) k i') <> 0 }.
Lemma haskey_ok t ks k : DI t ks -> k <> 0 -> haskey h t k = true <-> In k ks.
Proof.
  intros [P Z0 V _ K] Nk. pose proof (prime_ge_2 _ P) as G. unfold haskey. destruct (lookup_ok t k ltac:(lia)) as (j & R & -> & A & B). rewrite Z.eqb_eq. split.
  - intros E. rewrite <- E at 1. apply V; [apply slot_rng; lia|congruence].
  - intros I. destruct (K k I) as (j' & R' & E' & A'). destruct (Z.lt_trichotomy j j') as [L|[ ->|L]].
    + destruct (A' j ltac:(lia)) as [X Y]. destruct B as [B|[B|B]]; [contradiction|contradiction|lia].
    + exact E'.
    + destruct (A j' ltac:(lia)) as [X _]. contradiction.
Qed.
Lemma addkey_ok t ks k : DI t ks -> k <> 0 ->
  match addkey h t k with
  | Ok t' => size t' = size t /\ exists ks', DI t' ks' /\ (length ks' <= S (length ks))%nat /\ (forall x, In x ks' <-> x = k \/ In x ks)
  | Null => size t <= Z.of_nat (length ks)
  | Fuel => False
  end.
Proof.
  intros I Nk. pose proof (haskey_ok t ks k I Nk) as Hk. destruct I as [P Z0 V O K]. pose proof (prime_ge_2 _ P) as G. unfold addkey. unfold haskey in Hk.
  destruct (lookup_ok t k ltac:(lia)) as (j & R & E & A & B). rewrite E in *.
  destruct (Z.eqb_spec (keys t (slot (size t) k j)) 0) as [Q|Q].
  - cbn [size]. split; [reflexivity|]. exists (k :: ks). set (b := slot (size t) k j) in *.
    assert (Rb : 0 <= b < size t) by (apply slot_rng; lia).
    assert (NI : ~ In k ks) by (intros X; apply Hk, Z.eqb_eq in X; congruence).
    split; [|split; [cbn; lia|intros x; cbn; split; intros [X|X]; auto]]. constructor; cbn [size keys].
    + exact P.
    + intros [X|X]; [exact (Nk X)|exact (Z0 X)].
    + intros s Rs. destruct (Z.eqb_spec s b); intros X; [left; reflexivity|right; apply V; assumption].
    + destruct O as (occ & L & O). exists (b :: occ). split; [cbn; lia|]. intros s Rs. destruct (Z.eqb_spec s b) as [->|N]; intros X; [left; reflexivity|right; apply O; assumption].
    + intros x [X|X].
      * subst x. exists j. fold b. rewrite Z.eqb_refl. split; [exact R|]. split; [reflexivity|]. intros i' Ri.
        destruct (Z.eqb_spec (slot (size t) k i') b) as [Y|Y]; [apply slot_inj in Y; [lia|exact P|lia|lia]|apply A, Ri].
      * destruct (K x X) as (jx & Rx & Ex & Ax). assert (Nx : x <> 0) by (intros ->; exact (Z0 X)). exists jx. split; [exact Rx|].
        assert (NB : forall i', 0 <= i' <= jx -> slot (size t) x i' <> b).
        { intros i' Ri Y. destruct (Z.eq_dec i' jx) as [->|N]; [congruence|]. destruct (Ax i' ltac:(lia)) as [_ Z1]. congruence. }
        split.
        -- destruct (Z.eqb_spec (slot (size t) x jx) b) as [Y|_]; [destruct (NB jx ltac:(lia) Y)|exact Ex].
        -- intros i' Ri. destruct (Z.eqb_spec (slot (size t) x i') b) as [Y|_]; [destruct (NB i' ltac:(lia) Y)|apply Ax, Ri].
  - destruct (Z.eqb_spec (keys t (slot (size t) k j)) k) as [Y|Y]; cbn [negb].
    + split; [reflexivity|]. exists ks. split; [constructor; assumption|]. split; [lia|]. intros x. split; [intros X; right; exact X|]. intros [ ->|X]; [apply Hk; reflexivity|exact X].
    + destruct B as [B|[B|B]]; [contradiction|contradiction|]. destruct O as (occ & L & O).
      assert (Fu : forall i, 0 <= i < size t -> keys t (slot (size t) k i) <> 0).
      { intros i Ri. destruct (Z.eq_dec i j) as [->|N]; [exact Q|apply A; lia]. }
      set (l := map (fun i => slot (size t) k (Z.of_nat i)) (seq 0 (Z.to_nat (size t)))).
      assert (ND : NoDup l).
      { unfold l. apply nodup_map_in; [|apply seq_NoDup]. intros a c Ia Ic Q2. apply in_seq in Ia, Ic. apply slot_inj in Q2; [lia|exact P|lia|lia]. }
      assert (IN : incl l occ).
      { intros s Is. apply in_map_iff in Is as (i & <- & Ii). apply in_seq in Ii. apply O; [apply slot_rng; lia|]. apply Fu. lia. }
      apply NoDup_incl_length in IN; [|exact ND]. unfold l in IN. rewrite map_length, seq_length in IN. lia.
Qed.
Lemma adds_ok : forall l t ks, DI t ks -> Forall (fun x => x <> 0) l -> (Z.of_nat (length ks) + Z.of_nat (length l) <= size t) ->
  exists t' ks', foldM (fun x t => addkey h t x) l t = Ok t' /\ DI t' ks' /\ (forall x, In x ks' <-> In x l \/ In x ks).
Proof.
  induction l as [|x l IH]; intros t ks I N L; cbn [foldM].
  - exists t, ks. split; [reflexivity|]. split; [exact I|]. intros x. split; [intros X; right; exact X|intros [[]|X]; exact X].
  - inversion N; subst. cbn [length] in L. pose proof (addkey_ok t ks x I ltac:(assumption)) as A.
    destruct (addkey h t x) as [t'| |]; [|lia|destruct A]. destruct A as (Sz & ks' & I' & Le & M). cbn [bind].
    destruct (IH t' ks' I' ltac:(assumption) ltac:(lia)) as (t2 & ks2 & E & I2 & M2). exists t2, ks2. split; [exact E|]. split; [exact I2|].
    intros y. rewrite M2, M. cbn. split; intros X; [destruct X as [X|[X|X]]; auto|destruct X as [[X|X]|X]; auto].
Qed.
Lemma empty_DI t : prime (size t) -> (forall s, keys t s = 0) -> DI t [].
Proof.
  intros P E. constructor; [exact P|intros []| | |intros k []].
  - intros s _ X. destruct (X (E s)).
  - exists []. split; [reflexivity|]. intros s _ X. destruct (X (E s)).
Qed.
End Dh.
