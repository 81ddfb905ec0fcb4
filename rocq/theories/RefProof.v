(** Lists of cells: the invariant of the lists of referring records. *)
From Coq Require Import List ZArith Bool Lia Permutation.
From Verif Require Import RefModel RefSpec.
Import ListNotations.
Open Scope Z_scope.

Section Assoc.
Context {A : Type}.
Implicit Types (l : list (Z * A)).
Lemma get_in k x l : get k l = Some x -> In (k, x) l.
Proof. induction l as [|[j y] l IH]; cbn; [discriminate|]. destruct (Z.eqb_spec j k); [intros [= <-]; left; subst; reflexivity|auto]. Qed.
Lemma get_key k x l : get k l = Some x -> In k (map fst l).
Proof. intros H. apply get_in in H. apply (in_map fst) in H. exact H. Qed.
Lemma key_get k l : In k (map fst l) -> exists x, get k l = Some x.
Proof. induction l as [|[j y] l IH]; cbn; [tauto|]. destruct (Z.eqb_spec j k); [eauto|]. intros [E|H]; [congruence|auto]. Qed.
Lemma get_none k l : get k l = None <-> ~ In k (map fst l).
Proof.
  split; [intros E H; destruct (key_get _ _ H) as (x&E'); congruence|].
  intros H. destruct (get k l) eqn:E; [|reflexivity]. exfalso. apply H. eapply get_key; eauto.
Qed.
Lemma in_get k x l : NoDup (map fst l) -> In (k, x) l -> get k l = Some x.
Proof.
  induction l as [|[j y] l IH]; cbn; [tauto|]. intros N [E|H].
  - injection E as -> ->. rewrite Z.eqb_refl. reflexivity.
  - inversion N; subst. destruct (Z.eqb_spec j k); [exfalso; subst; apply (in_map fst) in H; auto|auto].
Qed.
Lemma put_keys k x l : map fst (put k x l) = map fst l.
Proof. induction l as [|[j y] l IH]; cbn; [reflexivity|]. destruct (j =? k); cbn; congruence. Qed.
Lemma get_put_same k x l : In k (map fst l) -> get k (put k x l) = Some x.
Proof. induction l as [|[j y] l IH]; cbn; [tauto|]. destruct (Z.eqb_spec j k); cbn; [subst; rewrite Z.eqb_refl; auto|]. rewrite (proj2 (Z.eqb_neq _ _) n). intros [E|H]; [congruence|auto]. Qed.
Lemma get_put_other j k x l : j <> k -> get j (put k x l) = get j l.
Proof. intros N. induction l as [|[i y] l IH]; cbn; [reflexivity|]. destruct (Z.eqb_spec i k); cbn; [subst; destruct (Z.eqb_spec k j); [congruence|reflexivity]|]. rewrite IH. reflexivity. Qed.
Lemma get_del_other j k l : j <> k -> get j (del k l) = get j l.
Proof. intros N. induction l as [|[i y] l IH]; cbn; [reflexivity|]. destruct (Z.eqb_spec i k); cbn; [subst; destruct (Z.eqb_spec k j); [congruence|reflexivity]|]. rewrite IH. reflexivity. Qed.
Lemma del_keys k l : In k (map fst l) -> Permutation (map fst l) (k :: map fst (del k l)).
Proof.
  induction l as [|[j y] l IH]; cbn; [tauto|]. destruct (Z.eqb_spec j k); [subst; reflexivity|].
  intros [E|H]; [congruence|]. cbn. rewrite (IH H) at 1. apply perm_swap.
Qed.
Lemma get_split k x l : get k l = Some x -> exists l1 l2, l = l1 ++ (k, x) :: l2 /\ ~ In k (map fst l1).
Proof.
  induction l as [|[j y] l IH]; cbn; [discriminate|]. destruct (Z.eqb_spec j k).
  - intros [= <-]. exists [], l. subst. split; [reflexivity|cbn; tauto].
  - intros H. destruct (IH H) as (l1&l2&->&N). exists ((j, y) :: l1), l2. split; [reflexivity|]. cbn. intros [E|I]; auto.
Qed.
Lemma put_split k x y l1 l2 : ~ In k (map fst l1) -> put k y (l1 ++ (k, x) :: l2) = l1 ++ (k, y) :: l2.
Proof. induction l1 as [|[j z] l1 IH]; cbn; intros N; [rewrite Z.eqb_refl; reflexivity|]. destruct (Z.eqb_spec j k); [exfalso; auto|]. rewrite IH; auto. Qed.
Lemma del_split k x l1 l2 : ~ In k (map fst l1) -> del k (l1 ++ (k, x) :: l2) = l1 ++ l2.
Proof. induction l1 as [|[j z] l1 IH]; cbn; intros N; [rewrite Z.eqb_refl; reflexivity|]. destruct (Z.eqb_spec j k); [exfalso; auto|]. rewrite IH; auto. Qed.
Lemma del_none k l : NoDup (map fst l) -> get k (del k l) = None.
Proof.
  induction l as [|[j y] l IH]; cbn; [reflexivity|]. intros N; inversion N; subst. destruct (Z.eqb_spec j k); [subst; apply get_none; assumption|].
  cbn. rewrite (proj2 (Z.eqb_neq _ _) n). auto.
Qed.
Lemma del_nodup k l : NoDup (map fst l) -> NoDup (map fst (del k l)).
Proof.
  induction l as [|[j y] l IH]; cbn; [auto|]. intros N; inversion N; subst. destruct (Z.eqb_spec j k); [assumption|].
  cbn. constructor; [|auto]. intros I. apply H1. clear -I. revert I. induction l as [|[i z] l IH]; cbn; [auto|]. destruct (i =? k); cbn; [auto|]. intros [E|I]; auto.
Qed.
Lemma del_in j k l : In j (map fst (del k l)) -> In j (map fst l).
Proof. induction l as [|[i z] l IH]; cbn; [auto|]. destruct (i =? k); cbn; [auto|]. intros [E|I]; auto. Qed.
Lemma del_put_comm j k x l : j <> k -> del j (put k x l) = put k x (del j l).
Proof.
  intros N. induction l as [|[i z] l IH]; cbn; [reflexivity|]. destruct (Z.eqb_spec i k), (Z.eqb_spec i j); subst; cbn.
  - congruence.
  - destruct (Z.eqb_spec k j); [congruence|]. rewrite Z.eqb_refl. reflexivity.
  - rewrite Z.eqb_refl. reflexivity.
  - rewrite (proj2 (Z.eqb_neq _ _) n0), (proj2 (Z.eqb_neq _ _) n). f_equal. exact IH.
Qed.
Lemma del_del_comm j k l : del j (del k l) = del k (del j l).
Proof.
  induction l as [|[i z] l IH]; cbn; [reflexivity|]. destruct (Z.eqb_spec i k), (Z.eqb_spec i j); subst; cbn; rewrite ?Z.eqb_refl; try reflexivity.
  destruct (Z.eqb_spec i k), (Z.eqb_spec i j); try congruence. 
Qed.
End Assoc.

(** The list of cells from [h] is [l]: cells with the referring records *)
Fixpoint path (cl : list (Z * (Z * Z))) (h : Z) (l : list (Z * Z)) : Prop :=
  match l with
  | [] => h = 0
  | (c, p) :: l => h = c /\ exists n, get c cl = Some (p, n) /\ path cl n l
  end.
Lemma path_frame cl cl' h l : (forall c, In c (map fst l) -> get c cl' = get c cl) -> path cl h l -> path cl' h l.
Proof.
  revert h. induction l as [|[c p] l IH]; intros h F; cbn; [auto|]. intros (->&n&E&P). split; [reflexivity|]. exists n.
  rewrite F by (left; reflexivity). split; [exact E|]. apply IH; [|exact P]. intros x Hx. apply F. right. exact Hx.
Qed.
Lemma path_keys cl h l : path cl h l -> incl (map fst l) (map fst cl).
Proof.
  revert h. induction l as [|[c p] l IH]; intros h; cbn; [intros _ x []|]. intros (_&n&E&P) x [<-|H]; [eapply get_key; eauto|eapply IH; eauto].
Qed.

(** The end of a list: where the word that leads past [l] is *)
Fixpoint end_loc (a : loc) (l : list (Z * Z)) : loc := match l with [] => a | (c, _) :: l => end_loc (Cdr c) l end.
Lemma end_loc_snoc a l c p : end_loc a (l ++ [(c, p)]) = Cdr c.
Proof. revert a. induction l as [|[x q] l IH]; intros a; cbn; [reflexivity|apply IH]. Qed.

(** The heads of the lists *)
Definition heads (d : db) : list (Z * Z) := map (fun e => (fst e, back (snd e))) (recs d).
Lemma heads_keys d : map fst (heads d) = map fst (recs d).
Proof. unfold heads. rewrite map_map. reflexivity. Qed.
Lemma get_heads d o : get o (heads d) = match get o (recs d) with Some x => Some (back x) | None => None end.
Proof. unfold heads. induction (recs d) as [|[j x] l IH]; cbn; [reflexivity|]. destruct (j =? o); [reflexivity|exact IH]. Qed.
Lemma put_heads o x z l : get o l = Some x ->
  map (fun e : Z * rec => (fst e, back (snd e))) (put o {| fields := fields x; back := z |} l) = put o z (map (fun e => (fst e, back (snd e))) l).
Proof. intros H. clear H. induction l as [|[j y] l IH]; cbn; [reflexivity|]. destruct (j =? o); cbn; congruence. Qed.

(** Records referring to [o], one for each reference *)
Definition parents (o : Z) (L : list (Z * Z)) : list Z := map fst (filter (fun e => snd e =? o) L).
Lemma parents_perm o L L' : Permutation L L' -> Permutation (parents o L) (parents o L').
Proof.
  intros P. unfold parents. apply Permutation_map. induction P; cbn.
  - constructor.
  - destruct (snd x =? o); [constructor|]; assumption.
  - destruct (snd x =? o), (snd y =? o); try reflexivity. apply perm_swap.
  - etransitivity; eauto.
Qed.
Lemma parents_cons o p q L : parents o ((p, q) :: L) = (if q =? o then [p] else []) ++ parents o L.
Proof. unfold parents. cbn. destruct (q =? o); reflexivity. Qed.
Lemma parents_in o p L : In p (parents o L) <-> In (p, o) L.
Proof.
  unfold parents. rewrite in_map_iff. split.
  - intros ([a b]&<-&H). apply filter_In in H. destruct H as [H E]. apply Z.eqb_eq in E. cbn in *. subst. exact H.
  - intros H. exists (p, o). split; [reflexivity|]. apply filter_In. split; [exact H|apply Z.eqb_refl].
Qed.

(** The invariant: [hs] the heads, [cl] the cells, [L] the references between records *)
Record InvL (hs : list (Z * Z)) (cl : list (Z * (Z * Z))) (L : list (Z * Z)) : Prop := {
  l_rk : NoDup (map fst hs);
  l_ck : NoDup (map fst cl);
  l_c0 : ~ In 0 (map fst cl);
  l_ch : exists ch : Z -> list (Z * Z),
    (forall o h, get o hs = Some h -> path cl h (ch o) /\ Permutation (map snd (ch o)) (parents o L)) /\
    Permutation (map fst cl) (flat_map (fun o => map fst (ch o)) (map fst hs));
  l_L : forall p o, In (p, o) L -> In o (map fst hs) }.
Lemma InvL_perm hs cl L L' : Permutation L L' -> InvL hs cl L -> InvL hs cl L'.
Proof.
  intros P [A B C (ch&D1&D2) E]. constructor; auto.
  - exists ch. split; [|exact D2]. intros o h H. destruct (D1 o h H) as [X Y]. split; [exact X|]. rewrite Y. apply parents_perm, P.
  - intros p o H. apply (E p o). apply (Permutation_in _ (Permutation_sym P)). exact H.
Qed.

(** Changing the list of one record *)
Definition upd (ch : Z -> list (Z * Z)) (o : Z) (l : list (Z * Z)) (q : Z) := if q =? o then l else ch q.
Lemma flat_upd (f g : Z -> list Z) o ks : NoDup ks -> In o ks -> (forall q, q <> o -> f q = g q) ->
  exists rest, Permutation (flat_map f ks) (f o ++ rest) /\ Permutation (flat_map g ks) (g o ++ rest).
Proof.
  induction ks as [|k ks IH]; cbn; [tauto|]. intros N H E. inversion N; subst. destruct (Z.eq_dec k o) as [->|X].
  - exists (flat_map f ks). split; [reflexivity|]. apply Permutation_app_head. rewrite !flat_map_concat_map, (map_ext_in g f ks); [reflexivity|].
    intros q Hq. symmetry. apply E. intros ->. auto.
  - destruct H as [H|H]; [congruence|]. destruct (IH H3 H E) as (rest&R1&R2). exists (f k ++ rest). rewrite R1, R2, <- (E k X). split; apply Permutation_app_swap_app.
Qed.
Lemma nodup_app_inv {B} (a b : list B) : NoDup (a ++ b) -> NoDup a /\ NoDup b /\ (forall x, In x a -> ~ In x b).
Proof.
  induction a as [|x a IH]; cbn; intros N; [split; [constructor|split; [exact N|intros ? []]]|]. inversion N; subst. destruct (IH H2) as (P&Q&R).
  split; [constructor; [intros I; apply H1, in_or_app; auto|exact P]|]. split; [exact Q|].
  intros y [->|I]; [intros J; apply H1, in_or_app; auto|auto].
Qed.
Lemma flat_disj (f : Z -> list Z) o q c ks : NoDup (flat_map f ks) -> In o ks -> In q ks -> In c (f o) -> In c (f q) -> o = q.
Proof.
  induction ks as [|k ks IH]; cbn; [tauto|]. intros N HO HQ CO CQ. destruct (nodup_app_inv _ _ N) as (N1&N2&X).
  destruct HO as [->|HO], HQ as [->|HQ]; auto.
  - exfalso. apply (X c CO). apply in_flat_map. eauto.
  - exfalso. apply (X c CQ). apply in_flat_map. eauto.
Qed.
Lemma flat_nodup (f : Z -> list Z) o ks : NoDup (flat_map f ks) -> In o ks -> NoDup (f o).
Proof. induction ks as [|k ks IH]; cbn; [tauto|]. intros N. destruct (nodup_app_inv _ _ N) as (N1&N2&X). intros [->|H]; auto. Qed.
