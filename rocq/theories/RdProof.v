(** Reading a term, an atom and a clause from the heap. *)
From Coq Require Import String Ascii Bool Arith ZArith Lia List Permutation.
From Verif Require Import RdModel RdSpec RdBase.
Import ListNotations.
Open Scope string_scope.
Open Scope list_scope.
Open Scope nat_scope.

Definition bindr {A B} (x : res A) (f : A -> res B) : res B :=
  match x with Ok a => f a | Fail => Fail | Wild => Wild | Spin => Spin end.

Section R.
  Variable caps quest : bool.
  Variable strtod : string -> option Z.
  Let prim := parse_primitive caps quest strtod.
  Let pterm := parse_term caps quest strtod.
  Let pargs := parse_args caps quest strtod.

  (** Reading of trees, in the order of the code *)
  Fixpoint conv (t : wterm) (vd : list string) {struct t} : res (sval * list string) :=
    match t with
    | WA a => prim (PA a) vd 1
    | WF f ts =>
        let fix go (ts : list wterm) (vd : list string) : res (list sval * list string) :=
          match ts with
          | [] => Ok ([], vd)
          | t :: r => bindr (conv t vd) (fun '(v, vd) => bindr (go r vd) (fun '(l, vd) => Ok (v :: l, vd)))
          end in
        bindr (prim (arith_name (PA f)) vd 0) (fun '(v, vd) =>
        bindr (go ts vd) (fun '(l, vd) => Ok (VRec (v :: l), vd)))
    | WL ts =>
        let fix go (ts : list wterm) (vd : list string) : res (sval * list string) :=
          match ts with
          | [] => Ok (VUri "$nil" None, vd)
          | t :: r => bindr (conv t vd) (fun '(v, vd) => bindr (go r vd) (fun '(w, vd) =>
                        Ok (VRec [VUri "$list" None; v; w], vd)))
          end in go ts vd
    end.
  Fixpoint conv_all (ts : list wterm) (vd : list string) : res (list sval * list string) :=
    match ts with
    | [] => Ok ([], vd)
    | t :: r => bindr (conv t vd) (fun '(v, vd) => bindr (conv_all r vd) (fun '(l, vd) => Ok (v :: l, vd)))
    end.
  Lemma conv_app f ts vd : conv (WF f ts) vd =
    bindr (prim (arith_name (PA f)) vd 0) (fun '(v, vd) =>
    bindr (conv_all ts vd) (fun '(l, vd) => Ok (VRec (v :: l), vd))).
  Proof.
    reflexivity.
  Qed.
  Lemma nil_prim vd k : prim (PA nil_atom) vd (S k) = Ok (VUri "$nil" None, vd).
  Proof. unfold prim. cbn. unfold var_name. cbn. destruct caps, quest; reflexivity. Qed.
  Lemma conv_list ts vd : conv (WL ts) vd = conv (chain_term ts) vd.
  Proof.
    revert vd. induction ts as [|t ts IH]; intros vd.
    - cbn -[prim]. rewrite nil_prim. reflexivity.
    - cbn [chain_term]. rewrite conv_app. cbn -[conv chain_term].
      transitivity (bindr (conv t vd) (fun '(v, vd) => bindr (conv (WL ts) vd) (fun '(w, vd) =>
                        Ok (VRec [VUri "$list" None; v; w], vd)))); [reflexivity|].
      destruct (conv t vd) as [[x w']| | |]; cbn -[conv chain_term]; auto. rewrite IH.
      destruct (conv (chain_term ts) w') as [[y w2]| | |]; reflexivity.
  Qed.

  Lemma prim_pos p vd k : prim p vd (S k) = prim p vd 1.
  Proof. destruct p as [|a|]; reflexivity. Qed.

  Definition rvar vd s : forall v vd', read_var vd s = Ok (v, vd') -> v <> VNull.
  Proof.
    unfold read_var. intros v vd' E. destruct var_index; [inversion E; subst; easy|].
    destruct (_ <? _); inversion E; subst; easy.
  Qed.
  Lemma prim_not_null a vd k v vd' : prim (PA a) vd k = Ok (v, vd') -> v <> VNull.
  Proof.
    unfold prim, parse_primitive. destruct (String.eqb (a_s1 a) ""); [easy|].
    destruct (a_ty a); intros E.
    - destruct strtol; inversion E; subst; easy.
    - destruct strtod; inversion E; subst; easy.
    - destruct (a_s2 a); [inversion E; subst; easy|]. destruct (_ =? _); [inversion E; subst; easy|].
      destruct var_name; [eapply rvar; eauto|inversion E; subst; easy].
    - repeat match type of E with (if ?b then _ else _) = _ => destruct b end; inversion E; subst; easy.
    - eapply rvar; eauto.
    - inversion E; subst; easy.
    - inversion E; subst; easy.
  Qed.
  Lemma conv_not_null t vd v vd' : conv t vd = Ok (v, vd') -> v <> VNull.
  Proof.
    destruct t as [a|f ts|ts].
    - apply prim_not_null.
    - rewrite conv_app. destruct prim as [[x w]| | |]; cbn; try easy. destruct conv_all as [[l w']| | |]; cbn; try easy.
      intros E; inversion E; easy.
    - destruct ts as [|t ts]; cbn; [intros E; inversion E; easy|].
      destruct (conv t vd) as [[x w]| | |]; cbn; try easy. match goal with |- context [bindr ?u _] => destruct u as [[y w2]| | |] end; cbn; try easy.
      intros E; inversion E; easy.
  Qed.

  Fixpoint size (t : wterm) : nat :=
    match t with
    | WA _ => 1
    | WF _ ts => 3 + list_sum (map (fun t => 1 + size t) ts)
    | WL ts => 4 + list_sum (map (fun t => 5 + size t) ts)
    end.
  Definition sizes (ts : list wterm) : nat := list_sum (map (fun t => 1 + size t) ts).
  Lemma size_chain ts : size (chain_term ts) = 1 + list_sum (map (fun t => 5 + size t) ts).
  Proof. induction ts as [|t ts IH]; [reflexivity|]. cbn [chain_term size map] in *. unfold list_sum in *. cbn [fold_right map] in *. rewrite IH. lia. Qed.
  Lemma sizes_len (ts : list wterm) : length ts <= list_sum (map (fun t => 5 + size t) ts).
  Proof. unfold list_sum. induction ts; cbn [map fold_right length] in *; lia. Qed.

  Lemma unshared_app R L R' L' : lists_unshared (R ++ R') (L ++ L') ->
    lists_unshared R L /\ lists_unshared R' L' /\ (forall n, In n R' \/ In n L' -> ~ In n L) /\
    (forall n, In n R \/ In n L -> ~ In n L').
  Proof.
    intros [N D].
    assert (X : forall n, In n L -> ~ In n L').
    { intros n A B. clear D. induction L as [|x L IH]; [easy|]. inversion N as [|? ? NI N']; subst.
      destruct A as [<-|A]; [|auto]. apply NI. apply in_or_app; auto. }
    split; [|split; [|split]].
    - split; [eapply nodup_l; eauto|]. intros n A B. apply (D n); apply in_or_app; auto.
    - split; [eapply nodup_r; eauto|]. intros n A B. apply (D n); apply in_or_app; auto.
    - intros n [A|A] B; [|eapply X; eauto]. apply (D n); apply in_or_app; auto.
    - intros n [A|A] B; [|eapply X; eauto]. apply (D n); apply in_or_app; auto.
  Qed.
  Lemma unshared_sub R R' L : lists_unshared R L -> incl R' R -> lists_unshared R' L.
  Proof. intros [N D] I. split; auto. intros n A B. apply (D n); auto. Qed.

  Definition term_ok (t : wterm) : Prop := forall h n R L vd fuel,
    held h (PC n) t R L -> lists_unshared R L -> size t <= fuel ->
    match conv t vd with
    | Ok (v, vd') => exists h', pterm fuel h vd (PC n) = Ok (v, h', vd') /\ same_but L h h'
    | Fail => pterm fuel h vd (PC n) = Fail
    | _ => True
    end.
  Lemma args_ok term : forall ts, Forall term_ok ts ->
    forall h q S ps R L vd fuel pos,
    chain h q S ps -> all_held h ps ts R L -> lists_unshared (S ++ R) L -> 1 + sizes ts <= fuel ->
    match conv_all ts vd with
    | Ok (l, vd') => exists h', pargs fuel h vd q (Datatypes.S pos) term = Ok (l, h', vd') /\ same_but L h h'
    | Fail => pargs fuel h vd q (Datatypes.S pos) term = Fail
    | _ => True
    end.
  Proof.
    intros ts F. induction F as [|t ts T F IH]; intros h q S ps R L vd fuel pos C A U Z.
    - inversion A; subst. inversion C; subst. cbn. destruct fuel; [cbn in Z; lia|]. exists h. split; [reflexivity|apply same_refl].
    - inversion A as [|p t' ps' ts' R1 L1 R2 L2 HT HA]; subst.
      inversion C as [|n p' q' S' ps'' E C']; subst.
      unfold sizes in Z. cbn [map list_sum fold_right] in Z. fold (list_sum (map (fun t => 1 + size t) ts)) in Z. fold (sizes ts) in Z.
      destruct fuel as [|fuel]; [lia|].
      assert (U' : lists_unshared ((n :: S' ++ R1) ++ (n :: S' ++ R2)) (L1 ++ L2)).
      { eapply unshared_sub; eauto. intros m M. cbn in *. rewrite !in_app_iff in *. cbn in M. rewrite !in_app_iff in M. intuition. }
      apply unshared_app in U' as (U1 & U2 & D1 & D2).
      assert (ONE : match conv t vd with
        | Ok (v, vd') => exists h', same_but L1 h h' /\
            match p with
            | PC _ => pterm fuel h vd p
            | _ => match prim (if term && (Datatypes.S pos =? 0) then arith_name p else p) vd (Datatypes.S pos) with
                   | Ok (v, vd) => Ok (v, h, vd) | Fail => Fail | Wild => Wild | Spin => Spin end
            end = Ok (v, h', vd')
        | Fail => match p with
            | PC _ => pterm fuel h vd p
            | _ => match prim (if term && (Datatypes.S pos =? 0) then arith_name p else p) vd (Datatypes.S pos) with
                   | Ok (v, vd) => Ok (v, h, vd) | Fail => Fail | Wild => Wild | Spin => Spin end
            end = Fail
        | _ => True end).
      { replace (term && (Datatypes.S pos =? 0)) with false by (destruct term; reflexivity).
        destruct p as [|a|k].
        - inversion HT.
        - inversion HT; subst. cbn [conv]. rewrite (prim_pos (PA a) vd pos).
          destruct (prim (PA a) vd 1) as [[v vd']| | |] eqn:EP; auto. exists h. split; [apply same_refl|reflexivity].
        - pose proof (T h k R1 L1 vd fuel HT) as Q.
          assert (lists_unshared R1 L1) by (eapply unshared_sub; [exact U1|]; intros m M; right; apply in_or_app; auto).
          specialize (Q H ltac:(lia)). destruct (conv t vd) as [[v vd']| | |]; auto.
          destruct Q as (h' & Q1 & Q2). eauto. }
      assert (PA_ : pargs (Datatypes.S fuel) h vd (PC n) (Datatypes.S pos) term =
        match match p with
            | PC _ => pterm fuel h vd p
            | _ => match prim (if term && (Datatypes.S pos =? 0) then arith_name p else p) vd (Datatypes.S pos) with
                   | Ok (v, vd) => Ok (v, h, vd) | Fail => Fail | Wild => Wild | Spin => Spin end
            end with
        | Ok (v, h, vd) =>
            match v, term with
            | VNull, false => Fail
            | _, _ => match nth_error h n with
                      | None => Wild
                      | Some (_, next) => match pargs fuel h vd next (Datatypes.S (Datatypes.S pos)) term with
                            | Ok (l, h, vd) => Ok (v :: l, h, vd)
                            | Fail => Fail | Wild => Wild | Spin => Spin end
                      end
            end
        | Fail => Fail | Wild => Wild | Spin => Spin end).
      { unfold pargs at 1. cbn [parse_args]. rewrite E. reflexivity. }
      cbn [conv_all]. destruct (conv t vd) as [[v vd']| | |] eqn:CV; cbn [bindr]; auto.
      + destruct ONE as (h1 & SB & ONE). rewrite ONE in PA_.
        assert (NN : nth_error h1 n = Some (p, q')).
        { eapply same_nth; eauto. intros K. apply (D1 n); auto. left; left; auto. }
        assert (VN := conv_not_null _ _ _ _ CV).
        assert (PA2 : pargs (Datatypes.S fuel) h vd (PC n) (Datatypes.S pos) term =
           match pargs fuel h1 vd' q' (Datatypes.S (Datatypes.S pos)) term with
                            | Ok (l, h, vd) => Ok (v :: l, h, vd)
                            | Fail => Fail | Wild => Wild | Spin => Spin end).
        { rewrite PA_, NN. destruct v; try reflexivity. elim VN; auto. }
        rewrite PA2.
        pose proof (IH h1 q' S' ps' R2 L2 vd' fuel (Datatypes.S pos)) as Q.
        assert (Q' : match conv_all ts vd' with
            | Ok (l, vd2) => exists h', pargs fuel h1 vd' q' (Datatypes.S (Datatypes.S pos)) term = Ok (l, h', vd2) /\ same_but L2 h1 h'
            | Fail => pargs fuel h1 vd' q' (Datatypes.S (Datatypes.S pos)) term = Fail | _ => True end).
        { apply Q.
          - eapply chain_same; eauto. intros m M. apply D1. left. right. apply in_or_app; auto.
          - eapply (proj2 (held_same L1 h h1 SB)); eauto. intros m [M|M]; apply D1; [left; right; apply in_or_app; auto|auto].
          - eapply unshared_sub; [exact U2|]. intros m M. right. auto.
          - lia. }
        destruct (conv_all ts vd') as [[l vd2]| | |]; cbn [bindr]; auto.
        * destruct Q' as (h2 & Q1 & Q2). exists h2. rewrite Q1. split; [reflexivity|].
          eapply same_trans; [exact SB|exact Q2| |]; intros m M; apply in_or_app; auto.
        * rewrite Q'. reflexivity.
      + rewrite PA_, ONE. reflexivity.
  Qed.

  Definition named (a : watom) : Prop := a_s1 a <> "".
  Inductive heads_named : wterm -> Prop :=
    | hn_a a : heads_named (WA a)
    | hn_f f ts : named f -> Forall heads_named ts -> heads_named (WF f ts)
    | hn_l ts : Forall heads_named ts -> heads_named (WL ts).

  (** a node whose head is not the list mark *)
  Lemma node_ok f ts : Forall term_ok ts -> forall h n q S ps R L vd fuel,
    nth_error h n = Some (PA f, q) -> chain h q S ps -> all_held h ps ts R L ->
    lists_unshared (n :: S ++ R) L -> 2 + sizes ts <= fuel ->
    match conv (WF f ts) vd with
    | Ok (v, vd') => exists h' l, v = VRec l /\ pargs fuel h vd (PC n) 0 true = Ok (l, h', vd') /\ same_but L h h'
    | Fail => pargs fuel h vd (PC n) 0 true = Fail
    | _ => True
    end.
  Proof.
    intros F h n q S ps R L vd fuel E C A U Z. destruct fuel as [|fuel]; [lia|].
    rewrite conv_app.
    assert (PA_ : pargs (Datatypes.S fuel) h vd (PC n) 0 true =
      match prim (arith_name (PA f)) vd 0 with
      | Ok (v, vd) =>
          match pargs fuel h vd q 1 true with
                  | Ok (l, h, vd) => Ok (v :: l, h, vd)
                  | Fail => Fail | Wild => Wild | Spin => Spin end
      | Fail => Fail | Wild => Wild | Spin => Spin end).
    { unfold pargs at 1. cbn [parse_args]. rewrite E. cbn [andb Nat.eqb]. change (parse_primitive caps quest strtod) with prim.
      destruct (prim (arith_name (PA f)) vd 0) as [[v vd']| | |]; auto. rewrite E. destruct v; reflexivity. }
    rewrite PA_. destruct (prim (arith_name (PA f)) vd 0) as [[v vd']| | |]; cbn [bindr]; auto.
    pose proof (args_ok true ts F h q S ps R L vd' fuel 0 C A) as Q.
    assert (U' : lists_unshared (S ++ R) L) by (eapply unshared_sub; [exact U|]; intros m M; right; auto).
    specialize (Q U' ltac:(lia)).
    destruct (conv_all ts vd') as [[l vd2]| | |]; cbn [bindr]; auto.
    - destruct Q as (h' & Q1 & Q2). exists h', (v :: l). rewrite Q1. auto.
    - rewrite Q. reflexivity.
  Qed.

  Lemma list_sum_in (f : wterm -> nat) ts t : In t ts -> f t <= list_sum (map f ts).
  Proof. unfold list_sum. induction ts as [|x ts IH]; [easy|]. cbn [map fold_right]. intros [<-|I]; [lia|]. specialize (IH I). lia. Qed.
  Lemma chain_named ts : Forall heads_named ts -> heads_named (chain_term ts).
  Proof. intros F. induction F; cbn; constructor; [easy|repeat constructor; auto]. Qed.

  Theorem all_terms_ok : forall N t, size t <= N -> heads_named t -> term_ok t.
  Proof.
    induction N as [|N IHN]; intros t SZ HN; [destruct t; cbn in SZ; lia|].
    assert (IHt : forall u, size u < size t -> heads_named u -> term_ok u) by (intros; apply IHN; auto; lia).
    clear IHN SZ. intros h n R L vd fuel H U Z.
    destruct t as [a|f ts|ts].
    - inversion H.
    - inversion H as [|n' f' q S ps ts' R' L' E IL C A| |]; subst. inversion HN as [|? ? NF F|]; subst.
      assert (FT : Forall term_ok ts).
      { rewrite Forall_forall in *. intros u I. apply IHt; auto. cbn [size].
        pose proof (list_sum_in (fun t => 1 + size t) ts u I). cbn beta in *. lia. }
      destruct fuel as [|fuel]; [cbn in Z; lia|].
      pose proof (node_ok f ts FT h n q S ps R' L vd fuel E C A U) as Q.
      specialize (Q ltac:(unfold sizes; cbn [size] in Z; lia)).
      assert (PT : pterm (Datatypes.S fuel) h vd (PC n) =
        match pargs fuel h vd (PC n) 0 true with
        | Ok (l, h, vd) => Ok (VRec l, h, vd)
        | Fail => Fail | Wild => Wild | Spin => Spin end).
      { unfold pterm. cbn [parse_term cell]. rewrite E. apply String.eqb_neq in NF. rewrite NF, IL. reflexivity. }
      rewrite PT. destruct (conv (WF f ts) vd) as [[v vd']| | |]; auto.
      + destruct Q as (h' & l & -> & Q1 & Q2). rewrite Q1. eauto.
      + rewrite Q. reflexivity.
    - assert (IL : forall f, is_lst f = true -> String.eqb (a_s1 f) "" = false).
      { intros f. unfold is_lst. destruct (String.eqb_spec (a_s1 f) "$$lst") as [->|]; [reflexivity|easy]. }
      inversion H as [| |n' f E I|n' f m q r S ps t ts' R' L' E I E' C A]; subst.
      + destruct fuel as [|fuel]; [cbn in Z; lia|]. cbn -[pterm].
        exists h. split; [|apply same_refl]. unfold pterm. cbn [parse_term cell]. rewrite E, (IL f I), I.
        unfold preprocess_list. cbn [cell]. rewrite E. reflexivity.
      + destruct fuel as [|fuel]; [cbn in Z; lia|].
        set (TS := t :: ts') in *.
        pose proof (sizes_len TS) as SL. cbn [size] in Z.
        destruct U as [ND DJ].
        assert (NDS : NoDup S) by (eapply nodup_l; eauto).
        assert (LS : length S = length TS) by (rewrite (chain_len _ _ _ _ C); eapply all_held_len; eauto).
        assert (NE : ps <> []) by (destruct ps; [inversion A|easy]).
        destruct (reverse_ok h q S ps fuel C NE NDS ltac:(lia)) as (h1 & p1 & E1 & C1 & B1 & L1).
        destruct (all_held_rev _ _ _ _ _ A) as (R2 & L2 & A2 & PR & PL).
        assert (DS : forall k, In k R2 \/ In k L2 -> ~ In k S).
        { intros k K KS. destruct K as [K|K].
          - apply (DJ k); [apply in_or_app; auto|]. right; right. eapply Permutation_in; [symmetry; exact PR|auto].
          - assert (K' : In k L') by (eapply Permutation_in; [symmetry; exact PL|auto]).
            clear -ND KS K'. induction S as [|x S IH]; [easy|]. inversion ND; subst.
            destruct KS as [<-|KS]; [apply H1; apply in_or_app; auto|auto]. }
        assert (A3 : all_held h1 (rev ps) (rev TS) R2 L2) by (eapply (proj2 (held_same S h h1 B1)); eauto).
        destruct (list_loop_ok (rev ps) fuel h1 p1 (rev S) (uri "$nil") (rev TS) (WA nil_atom) R2 L2 [] [])
          as (h2 & p2 & R3 & L3 & E3 & H3 & P3 & RR & S3 & NN); auto.
        { constructor. }
        { rewrite rev_length. lia. }
        rewrite fold_chain in H3.
        destruct NN as (n2 & ->). { intros X. apply (f_equal (@rev ptr)) in X. rewrite rev_involutive in X. auto. }
        assert (U3 : lists_unshared R3 L3).
        { assert (P4 : Permutation L3 L') by (rewrite P3, app_nil_r; symmetry; exact PL).
          split.
          - eapply Permutation_NoDup; [symmetry; exact P4|]. eapply nodup_r; eauto.
          - intros k K KR. assert (KL : In k L') by (eapply Permutation_in; eauto).
            apply RR in KR as [KR|[[]|KR]].
            + apply (DJ k); [apply in_or_app; auto|]. right; right. eapply Permutation_in; [symmetry; exact PR|auto].
            + pose proof (proj2 (held_lt h) _ _ _ _ A k (or_intror KL)). lia. }
        unfold TS in H3. cbn [chain_term] in H3.
        inversion H3 as [|n' f' q3 S4 ps4 ts4 R4 L4 E4 I4 C4 A4| |]; subst.
        assert (FT : Forall term_ok [t; chain_term ts']).
        { inversion HN as [| |? FN]; subst. inversion FN as [|? ? Ht FN']; subst. constructor; [|constructor; [|constructor]].
          - apply IHt; auto. unfold TS. cbn [size map list_sum fold_right]. lia.
          - apply IHt; [|apply chain_named; auto]. rewrite size_chain. unfold TS. cbn [size map list_sum fold_right].
            fold (list_sum (map (fun t => 5 + size t) ts')). lia. }
        pose proof (node_ok lst_head [t; chain_term ts'] FT h2 n2 q3 S4 ps4 R4 L3 vd fuel E4 C4 A4 U3) as Q.
        assert (ZF : 2 + sizes [t; chain_term ts'] <= fuel).
        { unfold sizes. unfold TS in Z. cbn [map list_sum fold_right] in *. fold (list_sum (map (fun t => 5 + size t) ts')) in Z.
          rewrite size_chain. lia. }
        specialize (Q ZF).
        assert (PT : pterm (Datatypes.S fuel) h vd (PC n) =
          match pargs fuel h2 vd (PC n2) 0 true with
          | Ok (l, h, vd) => Ok (VRec l, h, vd)
          | Fail => Fail | Wild => Wild | Spin => Spin end).
        { unfold pterm. cbn [parse_term cell]. rewrite E, (IL f I), I.
          unfold preprocess_list. cbn [cell]. rewrite E. cbn [cell]. rewrite E'.
          destruct q as [|qa|qn]; [inversion C; subst; easy|inversion C|].
          rewrite E1, E3. reflexivity. }
        rewrite PT, conv_list. unfold TS. cbn [chain_term].
        destruct (conv (WF lst_head [t; chain_term ts']) vd) as [[v vd']| | |]; auto.
        * destruct Q as (h' & l & -> & Q1 & Q2). rewrite Q1. exists h'. split; [reflexivity|].
          assert (P4 : Permutation L3 L') by (rewrite P3, app_nil_r; symmetry; exact PL).
          eapply same_trans; [eapply same_trans with (M := S); [exact B1|exact S3| |]|exact Q2| |].
          -- apply incl_refl.
          -- easy.
          -- intros k K. apply in_or_app; auto.
          -- intros k K. apply in_or_app. right. eapply Permutation_in; eauto.
        * rewrite Q. reflexivity.
  Qed.
End R.
