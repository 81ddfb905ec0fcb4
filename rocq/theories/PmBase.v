(** Numbering of places, keys, loops and lists. *)
From Coq Require Import List ZArith Bool Lia.
From Verif Require Import Word64 Terms UnifyModel MatchModel MetaModel BuildModel DeriveModel HashModel HashSpec HashProof OrdSpec OrdModel PmModel PmSpec.
Import ListNotations.
Open Scope Z_scope.

Lemma size_pos t : 1 <= size t.
Proof.
  induction t as [i|c|fs IH] using term_ind'; cbn [size]; try lia.
  destruct fs as [|h args]; [lia|]. apply Forall_inv_tail in IH.
  enough (0 <= fold_right (fun x a => size x + a) 0 args) by lia.
  induction IH; cbn [fold_right]; lia.
Qed.
Lemma sizes_nonneg ts : 0 <= sizes ts.
Proof. unfold sizes. induction ts as [|x ts IH]; cbn [fold_right]; [lia|]. pose proof (size_pos x). lia. Qed.
Lemma sizes_app a b : sizes (a ++ b) = sizes a + sizes b.
Proof. unfold sizes. induction a as [|x a IH]; cbn [List.app fold_right]; [reflexivity|]. lia. Qed.
Lemma number_nonneg : forall q t, 0 <= number q t.
Proof.
  induction q as [|k q IH]; intros t; cbn [number]; [lia|]. destruct t as [i|c|fs]; try lia.
  specialize (IH (nth k fs (TRec []))). pose proof (sizes_nonneg (firstn (k - 1) (tl fs))). lia.
Qed.

Lemma headed_rec fs : headed (TRec fs) -> exists c args, fs = TCst c :: args /\ Forall headed args.
Proof.
  cbn [headed]. intros [A B]. destruct fs as [|[i|c|gs] args]; try contradiction. exists c, args. split; [reflexivity|].
  destruct B as [_ B]. induction args as [|a args IH]; [constructor|]. destruct B. constructor; auto.
Qed.

Section Places.
  Variable o : popts.
  Notation deep := (o_deep o).

  Definition in_spos (depth path : Z) (t : term) (l : list (Z * list nat * term)) : Prop :=
    forall pq q u, In (pq, q, u) l <->
      sub q t = Some u /\ not_var u /\ 1 <= depth + Z.of_nat (length q) /\
      (deep = true -> depth + Z.of_nat (length q) <= 2) /\ pq = path + number q t /\ pq <= maxpos.

  Lemma spos_entry_in depth path t pq q u :
    In (pq, q, u) (spos_entry o depth path t) <->
    q = [] /\ u = t /\ pq = path /\ 1 <= depth /\ (deep = true -> depth <= 2).
  Proof.
    unfold spos_entry. destruct (Z.ltb_spec depth 1); [cbn; split; [tauto|intros (_&_&_&X&_); lia]|].
    destruct deep; cbn [andb].
    - destruct (Z.ltb_spec 2 depth); cbn.
      + split; [tauto|]. intros (_&_&_&_&X). specialize (X eq_refl). lia.
      + split; [intros [E|[]]; injection E as <- <- <-; repeat split; auto; lia|]. intros (->&->&->&_). auto.
    - cbn. split; [intros [E|[]]; injection E as <- <- <-; repeat split; auto; try lia; discriminate|]. intros (->&->&->&_). auto.
  Qed.

  Definition ok_spos (t : term) : Prop := headed t -> forall depth path l p, 0 <= depth -> spos o t depth path = (l, p) ->
    path <= p <= path + size t - 1 /\ (p = path + size t - 1 \/ maxpos < p) /\ in_spos depth path t l.

  Lemma spos_loop_ok depth : 0 <= depth -> forall args, Forall ok_spos args -> Forall headed args ->
    forall k path l p, (1 <= k)%nat ->
    spos_loop (fun x p => spos o x (depth + 1) p) k args path = (l, p) ->
    path <= p <= path + sizes args /\ (p = path + sizes args \/ maxpos < p) /\
    (forall pq q u, In (pq, q, u) l <->
       exists j q' x, q = (k + j)%nat :: q' /\ nth_error args j = Some x /\ sub q' x = Some u /\ not_var u /\
         1 <= depth + Z.of_nat (length q) /\ (deep = true -> depth + Z.of_nat (length q) <= 2) /\
         pq = path + 1 + sizes (firstn j args) + number q' x /\ pq <= maxpos).
  Proof.
    intros Hd args Hok Hh. induction args as [|x args IH]; intros k path l p Hk; cbn [spos_loop].
    - intros E; injection E as <- <-. cbn [sizes fold_right]. split; [lia|]. split; [left; lia|].
      intros pq q u. split; [intros []|]. intros (j&q'&x&_&E&_). destruct j; discriminate.
    - apply Forall_inv in Hok as Hx. apply Forall_inv_tail in Hok. apply Forall_inv in Hh as Hhx. apply Forall_inv_tail in Hh.
      destruct (Nat.eqb_spec k 0) as [->|_]; [lia|]. cbn [andb].
      destruct (spos o x (depth + 1) (path + 1)) as [l1 p1] eqn:E1.
      destruct (spos_loop (fun x p => spos o x (depth + 1) p) (S k) args p1) as [l2 p2] eqn:E2.
      intros E; injection E as <- <-.
      destruct (Hx Hhx (depth + 1) (path + 1) l1 p1 ltac:(lia) E1) as (A1&A2&A3).
      destruct (IH Hok Hh (S k) p1 l2 p2 ltac:(lia) E2) as (B1&B2&B3).
      change (sizes (x :: args)) with (size x + sizes args).
      split; [lia|]. split; [lia|].
      intros pq q u. rewrite in_app_iff. split.
      + intros [Hin|Hin].
        * apply in_map_iff in Hin as ([[pq' q'] u']&E&Hin). cbn [fst snd] in E. injection E as <- <- <-.
          apply A3 in Hin as (C1&C2&C3&C4&C5&C6). exists O, q', x. rewrite Nat.add_0_r. cbn [length firstn nth_error].
          change (sizes []) with 0. split; [reflexivity|]. split; [reflexivity|]. split; [exact C1|]. split; [exact C2|].
          split; [lia|]. split; [intros D; specialize (C4 D); lia|]. split; [lia|exact C6].
        * apply B3 in Hin as (j&q'&y&C0&C1&C2&C3&C4&C5&C6&C7). exists (S j), q', y.
          split; [rewrite C0; f_equal; lia|]. split; [exact C1|]. split; [exact C2|]. split; [exact C3|]. split; [exact C4|]. split; [exact C5|].
          cbn [firstn]. change (sizes (x :: firstn j args)) with (size x + sizes (firstn j args)).
          pose proof (sizes_nonneg (firstn j args)). pose proof (number_nonneg q' y).
          split; [|exact C7]. destruct A2 as [A2|A2]; lia.
      + intros (j&q'&y&C0&C1&C2&C3&C4&C5&C6&C7). destruct j as [|j].
        * left. cbn in C1. injection C1 as <-. rewrite Nat.add_0_r in C0. subst q. cbn [firstn length] in *. change (sizes []) with 0 in C6.
          apply in_map_iff. exists (pq, q', u). split; [reflexivity|]. apply A3.
          split; [exact C2|]. split; [exact C3|]. split; [lia|]. split; [intros D; specialize (C5 D); lia|]. split; [lia|exact C7].
        * right. cbn [firstn] in C6. change (sizes (x :: firstn j args)) with (size x + sizes (firstn j args)) in C6.
          pose proof (sizes_nonneg (firstn j args)). pose proof (number_nonneg q' y).
          apply B3. exists j, q', y. split; [rewrite C0; f_equal; lia|]. split; [exact C1|]. split; [exact C2|]. split; [exact C3|]. split; [exact C4|]. split; [exact C5|].
          split; [|exact C7]. destruct A2 as [A2|A2]; lia.
  Qed.

  Lemma spos_ok : forall t, ok_spos t.
  Proof.
    induction t as [i|c|fs IH] using term_ind'; intros Hh depth path l p Hd; cbn [spos].
    - destruct (Z.ltb_spec maxpos path); intros E; injection E as <- <-; cbn [size]; (split; [lia|]); (split; [lia|]);
        intros pq q u; (split; [intros []|]); intros (A&B&_); (destruct q as [|k q]; cbn in A; [injection A as <-; destruct B|discriminate]).
    - cbn [size]. destruct (Z.ltb_spec maxpos path) as [Hm|Hm]; intros E; injection E as <- <-; (split; [lia|]); (split; [lia|]); intros pq q u.
      + split; [intros []|]. intros (A&_&_&_&E&F). destruct q as [|k q]; [|cbn in A; discriminate]. cbn [number] in E. lia.
      + rewrite spos_entry_in. split.
        * intros (->&->&->&A&B). cbn. split; [reflexivity|]. split; [exact I|]. split; [lia|]. split; [intros D; specialize (B D); lia|]. lia.
        * intros (A&_&B&C&E&F). destruct q as [|k q]; [|cbn in A; discriminate]. cbn in A, B, C, E. injection A as <-.
          split; [reflexivity|]. split; [reflexivity|]. split; [lia|]. split; [lia|]. intros D; specialize (C D); lia.
    - apply headed_rec in Hh as (c&args&->&Hargs). cbn [size]. fold (sizes args).
      destruct (Z.ltb_spec maxpos path) as [Hm|Hm].
      { intros E; injection E as <- <-. pose proof (sizes_nonneg args). split; [lia|]. split; [lia|]. intros pq q u. split; [intros []|].
        intros (_&_&_&_&E&F). pose proof (number_nonneg q (TRec (TCst c :: args))). lia. }
      cbn [spos_loop Nat.eqb is_rec negb andb].
      destruct (spos_loop (fun x p => spos o x (depth + 1) p) 1 args path) as [l1 p1] eqn:E1. intros E; injection E as <- <-.
      destruct (spos_loop_ok depth Hd args (Forall_inv_tail IH) Hargs 1 path l1 p1 ltac:(lia) E1) as (A1&A2&A3).
      split; [lia|]. split; [lia|]. intros pq q u. rewrite in_app_iff, A3, spos_entry_in. split.
      + intros [(j&q'&x&C0&C1&C2&C3&C4&C5&C6&C7)|(->&->&->&C1&C2)].
        * subst q. cbn [sub Nat.add nth_error number tl nth]. rewrite C1. split; [exact C2|]. split; [exact C3|]. split; [exact C4|]. split; [exact C5|].
          replace (S j - 1)%nat with j by lia. rewrite (nth_error_nth args j (TRec []) C1). split; [lia|exact C7].
        * cbn. split; [reflexivity|]. split; [exact I|]. split; [lia|]. split; [intros D; specialize (C2 D); lia|]. lia.
      + intros (C1&C2&C3&C4&C5&C6). destruct q as [|k q].
        * right. cbn in C1, C3, C4, C5. injection C1 as <-. split; [reflexivity|]. split; [reflexivity|]. split; [lia|]. split; [lia|]. intros D; specialize (C4 D); lia.
        * left. cbn [sub] in C1. destruct k as [|j]; [discriminate|]. cbn [nth_error] in C1.
          destruct (nth_error args j) as [x|] eqn:Ej; [|discriminate]. exists j, q, x.
          split; [reflexivity|]. split; [exact Ej|]. split; [exact C1|]. split; [exact C2|]. split; [exact C3|]. split; [exact C4|].
          cbn [number tl nth] in C5. replace (S j - 1)%nat with j in C5 by lia. rewrite (nth_error_nth args j (TRec []) Ej) in C5. split; [lia|exact C6].
  Qed.

  (** The places of an atom, exactly. *)
  Lemma spos_places atom p q u : headed atom ->
    In (p, q, u) (fst (spos o atom 0 0)) <-> place deep atom q u /\ p = number q atom.
  Proof.
    intros Hh. destruct (spos o atom 0 0) as [l e] eqn:E. destruct (spos_ok atom Hh 0 0 l e ltac:(lia) E) as (_&_&H). cbn [fst].
    rewrite (H p q u). change maxpos with 60000. split.
    - intros (A&B&C&D&F&G). split; [|lia]. split; [exact A|destruct q; [cbn in C; lia|discriminate]|exact B|intros X; specialize (D X); lia|lia].
    - intros [[A B C D F] ->]. split; [exact A|]. split; [exact C|]. split; [destruct q; [contradiction|cbn [length]; lia]|].
      split; [intros X; specialize (D X); lia|]. split; [lia|exact F].
  Qed.
End Places.

(** * Keys *)
Section Keys.
  Variable dhash : dblv -> Z.
  Variable ltext : Z -> list Z.
  Lemma key_meet x y : headed x -> headed y -> not_var x -> not_var y -> unifiable x y ->
    head_key dhash ltext x = head_key dhash ltext y.
  Proof.
    intros Hx Hy Nx Ny [s E]. destruct x as [i|c|fs], y as [j|d|gs]; try contradiction; cbn [app] in E; try discriminate.
    - injection E as ->. reflexivity.
    - apply headed_rec in Hx as (c&args&->&_). apply headed_rec in Hy as (d&args'&->&_). cbn [map app] in E. injection E as -> _. reflexivity.
  Qed.
  (** A key is a slot unless the hash of a symbol is the smallest int. *)
  Definition key_value (t : term) : Z :=
    match t with
    | TVar i => int_hash (w32 i)
    | TCst c => value_hash dhash ltext c
    | TRec (TVar i :: _) => int_hash (w32 i)
    | TRec (TCst c :: _) => value_hash dhash ltext c
    | _ => 0
    end.
  Lemma slot_of v : - 2 ^ 31 < v < 2 ^ 31 -> is_slot 1000000 (1 + Z.rem (neg_fix32 v) 999997).
  Proof.
    intros H. assert (A : 0 <= neg_fix32 v).
    { unfold neg_fix32. destruct (Z.ltb_spec v 0); [|lia]. rewrite w32_id; lia. }
    pose proof (Z.rem_bound_pos (neg_fix32 v) 999997 A ltac:(lia)). unfold is_slot. lia.
  Qed.
  Lemma int_hash_range x : 0 <= int_hash x < 999998.
  Proof.
    unfold int_hash. set (a := x * 2654435769). pose proof (Z.rem_bound_abs a 999998 ltac:(lia)) as B.
    change (Z.abs 999998) with 999998 in B. destruct (Z.leb_spec 0 (Z.rem a 999998)); lia.
  Qed.
  Lemma value_hash_range c : (forall d, - 2 ^ 31 <= dhash d < 2 ^ 31) -> - 2 ^ 31 <= value_hash dhash ltext c < 2 ^ 31.
  Proof.
    intros Hd. destruct c as [w|z|d|bs|x]; cbn [value_hash].
    - destruct (w =? 0); [lia|]. destruct (Z.land w 7 =? 3); [pose proof (int_hash_range (w32 (shr w 3))); lia|].
      destruct (Z.land w 255 =? 15); [lia|]. pose proof (int_hash_range (w32 w)). lia.
    - pose proof (int_hash_range (w32 z)). lia.
    - apply Hd.
    - unfold str_hash. pose proof (w32_in (str_sum bs 0)). lia.
    - unfold str_hash. pose proof (w32_in (str_sum (ltext x) 0)). lia.
  Qed.
  Lemma key_slot t : (forall d, - 2 ^ 31 <= dhash d < 2 ^ 31) -> key_value t <> - 2 ^ 31 -> is_slot 1000000 (head_key dhash ltext t).
  Proof.
    intros Hd Hv. assert (V : forall i, is_slot 1000000 (var_basehash i)).
    { intros i. apply slot_of. pose proof (int_hash_range (w32 i)). lia. }
    assert (C : forall c, value_hash dhash ltext c <> - 2 ^ 31 -> is_slot 1000000 (basehash dhash ltext c)).
    { intros c Hc. apply slot_of. pose proof (value_hash_range c Hd). lia. }
    destruct t as [i|c|[|[i|c|gs] fs]]; cbn [head_key key_value] in *; auto; unfold is_slot; lia.
  Qed.
End Keys.

(** * Loops *)
Lemma bind_ok {A B} (r : res A) (f : A -> res B) b : bind r f = Ok b -> exists a, r = Ok a /\ f a = Ok b.
Proof. destruct r; cbn; try discriminate. eauto. Qed.

Lemma gather_all {A B} (f : A -> res (list B)) l r : gather f l = Ok r ->
  forall x, In x l -> exists rx, f x = Ok rx /\ forall y, In y rx -> In y r.
Proof.
  revert r. induction l as [|a l IH]; intros r E x Hx; [destruct Hx|]. cbn [gather] in E.
  apply bind_ok in E as (ra&Ea&E). apply bind_ok in E as (rl&El&E). injection E as <-.
  destruct Hx as [->|Hx].
  - exists ra. split; [exact Ea|]. intros y Hy. apply in_or_app; auto.
  - destruct (IH rl El x Hx) as (rx&Ex&Hi). exists rx. split; [exact Ex|]. intros y Hy. apply in_or_app; auto.
Qed.
Lemma gather_in {A B} (f : A -> res (list B)) l r : gather f l = Ok r ->
  forall y, In y r -> exists x rx, In x l /\ f x = Ok rx /\ In y rx.
Proof.
  revert r. induction l as [|a l IH]; intros r E y Hy; cbn [gather] in E.
  - injection E as <-. destruct Hy.
  - apply bind_ok in E as (ra&Ea&E). apply bind_ok in E as (rl&El&E). injection E as <-.
    apply in_app_or in Hy as [Hy|Hy].
    + exists a, ra. cbn; auto.
    + destruct (IH rl El y Hy) as (x&rx&A1&A2&A3). exists x, rx. cbn; auto.
Qed.
Lemma gather_i_all {A B} (f : Z -> A -> res (list B)) l : forall i r, gather_i f i l = Ok r ->
  forall k x, nth_error l k = Some x -> exists rx, f (i + Z.of_nat k) x = Ok rx /\ forall y, In y rx -> In y r.
Proof.
  induction l as [|a l IH]; intros i r E k x Hx; [destruct k; discriminate|]. cbn [gather_i] in E.
  apply bind_ok in E as (ra&Ea&E). apply bind_ok in E as (rl&El&E). injection E as <-.
  destruct k as [|k]; cbn [nth_error] in Hx.
  - injection Hx as <-. exists ra. rewrite Z.add_0_r. split; [exact Ea|]. intros y Hy. apply in_or_app; auto.
  - destruct (IH (i + 1) rl El k x Hx) as (rx&Ex&Hi). exists rx. replace (i + Z.of_nat (S k)) with (i + 1 + Z.of_nat k) by lia.
    split; [exact Ex|]. intros y Hy. apply in_or_app; auto.
Qed.
Lemma gather_i_in {A B} (f : Z -> A -> res (list B)) l : forall i r, gather_i f i l = Ok r ->
  forall y, In y r -> exists k x rx, nth_error l k = Some x /\ f (i + Z.of_nat k) x = Ok rx /\ In y rx.
Proof.
  induction l as [|a l IH]; intros i r E y Hy; cbn [gather_i] in E.
  - injection E as <-. destruct Hy.
  - apply bind_ok in E as (ra&Ea&E). apply bind_ok in E as (rl&El&E). injection E as <-.
    apply in_app_or in Hy as [Hy|Hy].
    + exists O, a, ra. rewrite Z.add_0_r. cbn; auto.
    + destruct (IH (i + 1) rl El y Hy) as (k&x&rx&A1&A2&A3). exists (S k), x, rx.
      replace (i + Z.of_nat (S k)) with (i + 1 + Z.of_nat k) by lia. cbn; auto.
Qed.

(** * Lists *)
Lemma walk_more l : forall n m a r, (n <= m)%nat -> walk n l a = Some r -> walk m l a = Some r.
Proof.
  induction n as [|n IH]; intros m a r Hm E.
  - destruct m; cbn [walk] in *; destruct (a =? 0); auto; discriminate.
  - destruct m as [|m]; [lia|]. cbn [walk] in *. destruct (a =? 0); [exact E|].
    destruct (walk n l (n_next (nodes l a))) as [r'|] eqn:E'; [|discriminate].
    rewrite (IH m _ _ ltac:(lia) E'). exact E.
Qed.
Lemma vlen_lists len used h l : lists len used h l -> vlen l = len.
Proof. intros L. exact (proj1 (lists_inv _ _ _ _ L)). Qed.
Lemma listed_ok len used H l n key r : lists len used H l -> listed n l key = Ok r ->
  is_slot len key /\ r = under key H.
Proof.
  intros L. unfold listed. pose proof (vlen_lists _ _ _ _ L) as V.
  assert (Sl : is_slot len key \/ hashlist_len l key = -1 /\ hashlist_start l key = 0).
  { unfold hashlist_len, hashlist_start, is_slot. rewrite V. destruct (Z.leb_spec len key); [right; split; reflexivity|].
    destruct (Z.ltb_spec key 1); [right; split; reflexivity|left; lia]. }
  destruct Sl as [Sl|[-> ->]]; [|discriminate].
  set (m := (n + length (under key H))%nat).
  destruct (list_walk len used H l key m L Sl ltac:(lia)) as (A&B&C). rewrite A. intros E. split; [exact Sl|].
  destruct (under key H) as [|e E0] eqn:Eu.
  - cbn in E. injection E as <-. reflexivity.
  - destruct (Z.eqb_spec (Z.of_nat (length (e :: E0))) 0) as [X|X]; [cbn in X; lia|].
    destruct (hashlist_start l key =? 0); [discriminate|].
    destruct (walk n l (hashlist_start l key)) as [r'|] eqn:Ew; [|discriminate]. injection E as <-.
    pose proof (walk_more l n m _ _ ltac:(lia) Ew) as Ew'. rewrite B in Ew'. injection Ew' as ->. reflexivity.
Qed.
Lemma listed_defined len used H l n key : lists len used H l -> is_slot len key -> (length H <= n)%nat ->
  listed n l key = Ok (under key H).
Proof.
  intros L Sl Hn. unfold listed.
  destruct (list_walk len used H l key n L Sl ltac:(pose proof (under_len key H); lia)) as (A&B&C). rewrite A, B.
  destruct (under key H) as [|e E0] eqn:Eu; [reflexivity|].
  destruct (Z.eqb_spec (Z.of_nat (length (e :: E0))) 0) as [X|X]; [cbn in X; lia|].
  destruct (Z.eqb_spec (hashlist_start l key) 0) as [Y|Y]; [|reflexivity]. exfalso. apply C; [discriminate|exact Y].
Qed.
Lemma in_under k h e : In e (under k h) <-> In (k, e) h.
Proof.
  unfold under. rewrite in_map_iff. split.
  - intros ([k' e']&E&Hf). cbn in E. subst e'. apply filter_In in Hf as [Hf X]. cbn in X. apply Z.eqb_eq in X. subst. exact Hf.
  - intros Hi. exists (k, e). split; [reflexivity|]. apply filter_In. split; [exact Hi|]. cbn. apply Z.eqb_refl.
Qed.
Lemma add_all_lists len : forall es l used h addrs l', lists len used h l ->
  NoDup (flat addrs) -> (forall a, In a (flat addrs) -> a <> 0 /\ ~ In a used) ->
  add_all l es addrs = Ok l' ->
  exists used', lists len used' (rev es ++ h) l' /\ forall a, In a used' -> In a (flat addrs) \/ In a used.
Proof.
  induction es as [|[k [[t c] p]] es IH]; intros l used h addrs l' L Nd Hf; cbn [add_all].
  - intros E; injection E as <-. exists used. cbn; auto.
  - destruct addrs as [|[a0 a1] addrs]; [discriminate|]. destruct (add_hashlist l k t c p a0 a1) as [l1| |] eqn:E1; try discriminate.
    intros E. cbn [flat flat_map fst snd List.app] in Nd, Hf. fold (flat addrs) in Nd, Hf.
    apply NoDup_cons_iff in Nd as [N0 Nd]. apply NoDup_cons_iff in Nd as [N1 Nd].
    destruct (Hf a0 ltac:(cbn; auto)) as [Z0 F0]. destruct (Hf a1 ltac:(cbn; auto)) as [Z1 F1].
    assert (L1 : lists len (a0 :: a1 :: used) ((k, (t, c, p)) :: h) l1).
    { eapply l_add; eauto. intros ->. apply N0. cbn; auto. }
    destruct (IH l1 (a0 :: a1 :: used) ((k, (t, c, p)) :: h) addrs l' L1 Nd) as (u&Lu&Hu).
    + intros a Ha. destruct (Hf a ltac:(cbn; auto)) as [A B]. split; [exact A|]. intros [X|[X|X]].
      * subst a. apply N0. cbn; auto.
      * subst a. contradiction.
      * contradiction.
    + exact E.
    + exists u. cbn [rev]. rewrite <- app_assoc. split; [exact Lu|]. intros a Ha. cbn [flat flat_map fst snd List.app]. fold (flat addrs).
      destruct (Hu a Ha) as [X|[X|[X|X]]]; cbn; auto.
Qed.
Lemma add_all_defined : forall es l addrs, (length es <= length addrs)%nat -> (forall a, In a (flat addrs) -> a <> 0) ->
  (forall e, In e es -> is_slot (vlen l) (fst e)) -> exists l', add_all l es addrs = Ok l'.
Proof.
  induction es as [|[k [[t c] p]] es IH]; intros l addrs Hl Hz Hk; [exists l; destruct addrs; reflexivity|].
  destruct addrs as [|[a0 a1] addrs]; [cbn in Hl; lia|]. cbn [add_all].
  assert (A : exists l1, add_hashlist l k t c p a0 a1 = LOk l1 /\ vlen l1 = vlen l).
  { pose proof (Hz a0 ltac:(cbn; auto)) as Z0. pose proof (Hz a1 ltac:(cbn; auto)) as Z1.
    destruct (Hk _ (or_introl eq_refl)) as [K1 K2]. cbn [fst] in *. unfold add_hashlist.
    destruct (Z.leb_spec (vlen l) k); [lia|]. destruct (Z.ltb_spec k 1); [lia|]. cbn [orb].
    destruct (Z.eqb_spec a0 0); [contradiction|]. destruct (Z.eqb_spec a1 0); [contradiction|].
    destruct (heads l k =? 0); cbn [orb]; eexists; split; reflexivity. }
  destruct A as (l1&E&V). rewrite E. apply IH.
  - cbn in Hl. lia.
  - intros a Ha. apply Hz. cbn; auto.
  - intros e He. rewrite V. apply Hk. right; exact He.
Qed.
