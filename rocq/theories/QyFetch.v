(** Fetching the rows of a query, and the pages they are put into. *)
From Coq Require Import List ZArith Bool Lia.
From Verif Require Import TtModel TtSpec TtProof TtAdd QyModel QySpec QyTree.
Import ListNotations.
Open Scope Z_scope.

Section F.
Context {K : Type}.
Variable cmp : K -> K -> comparison.
Variable null : K.
Notation fetch := (fetch K cmp null).
Notation check_args := (check_args K cmp null).
Implicit Types (d : db K) (q : query K) (args : list (arg K)).

(* a query that fetches [M] from [d], looking at [k] rows *)
Inductive walks d : query K -> nat -> list Z -> Prop :=
| w_end q k : (forall n, exists q', fetch (S n) d q = Some (None, q')) -> walks d q k []
| w_hit q q' r k M : (forall n, fetch (S n) d q = Some (Some r, q')) -> walks d q' k M -> walks d q (S k) (r :: M)
| w_skip q q' k M : (forall n, fetch (S n) d q = fetch n d q') -> walks d q' k M -> walks d q (S k) M.

Lemma path_walks d id h eo es args co cs V : hget K id (hdrs K d) = Some h -> path (hix K h) eo es co cs V ->
  walks d (Qtree K id co cs eo es args) (length V) (filter (fun r => check_args d r args) V).
Proof.
  intro Hh. induction 1 as [cs|co cs c r M co' cs' H0 Hn Hs Hst Hp IH].
  - cbn. apply w_end. intro n. cbn. eauto.
  - cbn [length filter]. unfold step in Hst. destruct (check_args d r args) eqn:Ec.
    + eapply w_hit; [|exact IH]. intro n. cbn [QyModel.fetch]. destruct (Z.eqb_spec co 0); [contradiction|]. rewrite Hh, Hn, Hs, Hst, Ec. reflexivity.
    + eapply w_skip; [|exact IH]. intro n. cbn [QyModel.fetch]. destruct (Z.eqb_spec co 0); [contradiction|]. rewrite Hh, Hn, Hs, Hst, Ec. reflexivity.
Qed.
Lemma after_mid A r (f : list K) B : ~ In r (map fst A) -> after K r (A ++ (r, f) :: B) = first_rec K B.
Proof.
  induction A as [|[s g] A IH]; intro H; cbn [List.app after fst map] in *.
  - rewrite Z.eqb_refl. destruct B; reflexivity.
  - destruct (Z.eqb_spec s r); [exfalso; apply H; left; exact e|]. apply IH. intro Q. apply H. now right.
Qed.
Lemma scan_walks d args B : forall A, recs K d = A ++ B -> NoDup (map fst (recs K d)) -> ~ In 0 (map fst (recs K d)) ->
  walks d (Qscan K (first_rec K B) args) (length B) (filter (fun r => check_args d r args) (map fst B)).
Proof.
  induction B as [|[r f] B IH]; intros A HR Hnd H0.
  - cbn. apply w_end. intro n. cbn. eauto.
  - assert (HR2 : recs K d = (A ++ [(r, f)]) ++ B) by (rewrite HR, <- app_assoc; reflexivity). specialize (IH _ HR2 Hnd H0).
    assert (Hr : r <> 0) by (intros ->; apply H0; rewrite HR, map_app; apply in_elt).
    assert (HA : ~ In r (map fst A)) by (rewrite HR, map_app in Hnd; cbn [map fst] in Hnd; apply NoDup_remove_2 in Hnd; rewrite in_app_iff in Hnd; tauto).
    cbn [first_rec fst map filter length]. destruct (check_args d r args) eqn:Ec.
    + eapply w_hit; [|exact IH]. intro n. cbn [QyModel.fetch]. destruct (Z.eqb_spec r 0); [contradiction|]. rewrite Ec, HR, (after_mid _ _ _ _ HA). reflexivity.
    + eapply w_skip; [|exact IH]. intro n. cbn [QyModel.fetch]. destruct (Z.eqb_spec r 0); [contradiction|]. rewrite Ec, HR, (after_mid _ _ _ _ HA). reflexivity.
Qed.
Lemma walks_fetch d q k M : walks d q k M -> forall n, (k < n)%nat ->
  match M with
  | [] => exists q', fetch n d q = Some (None, q')
  | r :: M => exists q' k', fetch n d q = Some (Some r, q') /\ walks d q' k' M /\ (k' < k)%nat
  end.
Proof.
  induction 1 as [q k H|q q' r k M H Hw IH|q q' k M H Hw IH]; intros n Hn; (destruct n as [|n]; [lia|]).
  - apply H.
  - exists q', k. split; [apply H|]. split; [exact Hw|lia].
  - specialize (IH n ltac:(lia)). destruct M as [|r M].
    + destruct IH as (q1 & E). exists q1. rewrite H. exact E.
    + destruct IH as (q1 & k1 & E & E2 & E3). exists q1, k1. rewrite H. split; [exact E|]. split; [exact E2|lia].
Qed.
Definition puts (l : list Z) (ps : list (list Z)) : list (list Z) := fold_left (fun ps r => put r ps) l ps.
Lemma gather_ok d n limit M : forall q k m cnt ps, walks d q k M -> (k < n)%nat -> (k < m)%nat ->
  (limit = O \/ (cnt < limit)%nat) ->
  gather K cmp null n m d limit cnt q ps = Some (puts (if Nat.eqb limit 0 then M else firstn (limit - cnt) M) ps).
Proof.
  induction M as [|r M IH]; intros q k m cnt ps Hw Hn Hm Hl; (destruct m as [|m]; [lia|]); pose proof (walks_fetch _ _ _ _ Hw n Hn) as H; cbn [gather].
  - destruct H as (q' & ->). rewrite firstn_nil. destruct (Nat.eqb limit 0); reflexivity.
  - destruct H as (q' & k' & -> & Hw' & Hk). destruct (Nat.eqb_spec limit 0) as [->|Hz].
    + cbn [negb andb]. rewrite (IH q' k' m (S cnt) (put r ps)) by (auto; lia). reflexivity.
    + cbn [negb andb]. destruct (Nat.leb_spec limit (S cnt)) as [Hle|Hgt].
      * replace (limit - cnt)%nat with 1%nat by lia. reflexivity.
      * rewrite (IH q' k' m (S cnt) (put r ps)) by (auto; lia). destruct (Nat.eqb_spec limit 0); [contradiction|]. replace (limit - cnt)%nat with (S (limit - S cnt)) by lia. reflexivity.
Qed.
(* ---- pages ---- *)
Fixpoint paged (ps : list (list Z)) : Prop :=
  match ps with
  | [] => True
  | [p] => (0 < length p <= page_size)%nat
  | p :: ps => length p = page_size /\ paged ps
  end.
Lemma put_ok r ps : paged ps -> paged (put r ps) /\ concat (put r ps) = concat ps ++ [r].
Proof.
  induction ps as [|p ps IH]; intro H.
  - cbn. unfold page_size. split; [lia|reflexivity].
  - destruct ps as [|p2 ps].
    + cbn [put paged] in *. destruct (Nat.ltb_spec (length p) page_size).
      * cbn [paged concat]. rewrite app_length. cbn [length]. rewrite !app_nil_r. split; [lia|reflexivity].
      * cbn [paged concat length List.app]. rewrite !app_nil_r. unfold page_size in *. split; [lia|reflexivity].
    + destruct H as [H1 H2]. specialize (IH H2). destruct IH as [I1 I2]. change (put r (p :: p2 :: ps)) with (p :: put r (p2 :: ps)).
      cbn [concat]. rewrite I2. split; [|cbn [concat]; rewrite <- !app_assoc; reflexivity].
      destruct (put r (p2 :: ps)) as [|u v] eqn:Eu; [|split; [exact H1|exact I1]]. exfalso. cbn [concat] in I2. symmetry in I2. apply app_eq_nil in I2. destruct I2; discriminate.
Qed.
Lemma puts_ok l : forall ps, paged ps -> paged (puts l ps) /\ concat (puts l ps) = concat ps ++ l.
Proof.
  induction l as [|r l IH]; intros ps H; cbn [puts fold_left]; [rewrite app_nil_r; auto|].
  destruct (put_ok r ps H) as [H1 H2]. destruct (IH _ H1) as [H3 H4]. unfold puts in *. split; [exact H3|]. rewrite H4, H2, <- app_assoc. reflexivity.
Qed.
Lemma skipn_nth (p : list Z) : forall i, (i < length p)%nat -> skipn i p = nth i p 0 :: skipn (S i) p.
Proof. induction p as [|a p IH]; intros [|i] H; cbn [length] in H; try lia; [reflexivity|]. cbn [skipn nth]. rewrite IH by lia. reflexivity. Qed.
Lemma pages_yield n ps : (0 < n)%nat -> forall i, paged ps -> ~ In 0 (concat ps) -> (match ps with p :: _ => i <= length p /\ i < page_size | [] => True end)%nat ->
  yields cmp null n (Qpre K ps i) (match ps with p :: ps => skipn i p ++ concat ps | [] => [] end).
Proof.
  intro Hn. destruct n as [|n]; [lia|]. induction ps as [|p ps IH]; intros i Hp H0 Hi.
  - apply y_end. intro d. exists (Qpre K [] i). split; [reflexivity|]. intro d'. cbn. eauto.
  - destruct Hi as [Hi Hi2]. cbn [concat] in H0. rewrite in_app_iff in H0. remember (length p - i)%nat as k eqn:Ek. revert i Hi Hi2 Ek. induction k as [|k IHk]; intros i Hi Hi2 Ek.
    + assert (i = length p) by lia. subst i. assert (ps = []) as -> by (destruct ps; [reflexivity|destruct Hp; lia]). rewrite skipn_all. cbn. apply y_end.
      intro d. exists (Qpre K [] (S (length p))). cbn [QyModel.fetch]. rewrite nth_overflow by lia. split; [reflexivity|]. intro d'. cbn. eauto.
    + assert (Es : skipn i p = nth i p 0 :: skipn (S i) p) by (apply skipn_nth; lia).
      rewrite Es. cbn [List.app]. assert (Hne : nth i p 0 <> 0) by (intro Q; apply H0; left; rewrite <- Q; apply nth_In; lia).
      eapply y_row; [intro d; cbn [QyModel.fetch]; destruct (Z.eqb_spec (nth i p 0) 0); [contradiction|]; reflexivity|].
      destruct (Nat.leb_spec page_size (S i)) as [Hle|Hgt].
      * assert (Hlen : length p = page_size) by (destruct ps; [cbn in Hp; lia|apply Hp]). rewrite skipn_all2 by lia. cbn [List.app].
        assert (Hp' : paged ps) by (destruct ps; [exact I|apply Hp]). specialize (IH 0%nat Hp' ltac:(tauto)). destruct ps as [|p3 ps]; [apply IH; exact I|]. apply IH. unfold page_size. split; lia.
      * apply IHk; lia.
Qed.
Lemma pages_all n ps : (0 < n)%nat -> paged ps -> ~ In 0 (concat ps) -> yields cmp null n (Qpre K ps 0) (concat ps).
Proof.
  intros Hn H H0. pose proof (pages_yield n ps Hn 0 H H0) as Y. destruct ps as [|p ps]; apply Y; [exact I|]. unfold page_size. lia.
Qed.
(* a query built and gathered *)
Lemma gathered d q k M n limit : walks d q k M -> (k < n)%nat -> ~ In 0 M ->
  exists ps, gather K cmp null n n d limit 0 q [] = Some ps /\ yields cmp null n (Qpre K ps 0) (if Nat.eqb limit 0 then M else firstn limit M).
Proof.
  intros Hw Hn H0. rewrite (gather_ok d n limit M q k n 0 []) by (auto; lia). eexists. split; [reflexivity|]. rewrite Nat.sub_0_r.
  set (l := if Nat.eqb limit 0 then M else firstn limit M). destruct (puts_ok l [] I) as [H1 H2]. cbn in H2. rewrite <- H2 at 2. apply pages_all; [lia|exact H1|].
  rewrite H2. intro Q. apply H0. unfold l in Q. destruct (Nat.eqb limit 0); [exact Q|]. rewrite <- (firstn_skipn limit M). apply in_app_iff. now left.
Qed.
End F.
