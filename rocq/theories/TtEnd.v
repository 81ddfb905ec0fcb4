(** The T-tree index: histories. *)
From Coq Require Import List ZArith Bool Lia Sorted Permutation.
From Verif Require Import TtModel TtSpec TtProof TtShape TtChain TtSeek TtAdd TtDel.
Import ListNotations.
Open Scope Z_scope.
#[global] Arguments present {K} t.
#[global] Arguments value {K} t _.
#[global] Arguments index {K} t.

Section E.
Context {K : Type}.
Variable cmp : K -> K -> comparison.
Hypothesis TO : total_order cmp.

Lemma inv_ext key key' (x : ix K) : (forall e, In e (rows (tr x)) -> key' e = key e) -> inv cmp key x -> inv cmp key' x.
Proof.
  intros He [I1 I2 I3 I4 I5 I6]. rewrite rows_flat in He. constructor; auto.
  - destruct I4 as [H|[H W]]; [left; exact H|right; split; [exact H|]]. rewrite Forall_forall in *. intros c Hc. destruct (W c Hc) as [W1 W2 W3 W4]. constructor; auto.
    + rewrite W3. destruct (els c) as [|e es] eqn:Ee; [contradiction|]. cbn. rewrite He; [reflexivity|]. apply in_flat. exists c. rewrite Ee. cbn. auto.
    + rewrite W4. destruct (exists_last W1) as (es & e & Ee). rewrite Ee, last_app. cbn. rewrite He; [reflexivity|]. apply in_flat. exists c. rewrite Ee. split; [exact Hc|apply in_elt].
  - clear - I5 He. induction (flat (cells (tr x))) as [|a l IH]; [constructor|]. apply StronglySorted_inv in I5. destruct I5 as [I5 I6]. constructor.
    + apply IH; [|exact I5]. intros e H. apply He. now right.
    + rewrite Forall_forall in *. intros b Hb. rewrite !He; [apply I6; exact Hb|now right|now left].
Qed.
Lemma inv_new key root : root <> 0 -> inv cmp key (new_index K root).
Proof.
  intro H. constructor; cbn.
  - repeat split; lia.
  - constructor; [tauto|constructor].
  - unfold ids. cbn. tauto.
  - left. eexists. split; [reflexivity|]. auto.
  - constructor.
  - unfold chain. cbn. auto.
Qed.
Lemma perm_remove r l : NoDup l -> In r l -> Permutation l (r :: remove Z.eq_dec r l).
Proof.
  intros Hn Hi. apply NoDup_Permutation; [exact Hn| |].
  - constructor; [apply remove_In|]. clear Hi. induction Hn as [|a l Ha Hn IH]; [constructor|]. cbn. destruct (Z.eq_dec r a); [exact IH|]. constructor; [|exact IH]. intro Q. apply in_remove in Q. tauto.
  - intro x. cbn. split.
    + intro Hx. destruct (Z.eq_dec r x) as [|Ne]; [auto|right]. apply in_in_remove; auto.
    + intros [<-|Hx]; [exact Hi|]. apply in_remove in Hx. tauto.
Qed.
Record good (t : table K) : Prop := {
  g_inv : inv cmp (value t) (index t); g_perm : Permutation (rows (tr (index t))) (present t); g_nd : NoDup (present t); g_0 : ~ In 0 (present t) }.
Lemma good_change t u : good t -> change K cmp t u -> good u.
Proof.
  intros [G1 G2 G3 G4] H. destruct H as [t r k f x Hr0 Hr Hf0 Hf Ha|t r x Hr Ha|t r k f x y Hr Hf0 Hf Ha Hb].
  - assert (I' : inv cmp (set_value (value t) r k) (index t)).
    { apply (inv_ext (value t)); [|exact G1]. intros e He. unfold set_value. destruct (Z.eqb_spec e r) as [->|]; [|reflexivity]. exfalso. apply Hr. eapply Permutation_in; eauto. }
    rewrite nodes_ids in Hf. destruct (add_ok cmp _ TO _ r f I' Hf0 Hf) as (y & Y1 & Y2 & (L & R & Y3 & Y4) & _). rewrite Ha in Y1. injection Y1 as <-.
    constructor; cbn [value index present]; auto.
    + rewrite Y4. rewrite <- Permutation_middle. constructor. rewrite <- Y3. exact G2.
    + constructor; assumption.
    + intros [Q|Q]; [congruence|contradiction].
  - assert (Hi : In r (rows (tr (index t)))) by (eapply Permutation_in; [apply Permutation_sym; exact G2|exact Hr]).
    destruct (remove_ok cmp _ TO _ r G1 Hi) as (y & Y1 & Y2 & (L & R & Y3 & Y4) & _). rewrite Ha in Y1. injection Y1 as <-.
    constructor; cbn [value index present]; auto.
    + rewrite Y4. apply (Permutation_cons_inv (a := r)). rewrite (Permutation_middle L R r), <- Y3, G2. now apply perm_remove.
    + assert (P : Permutation (r :: remove Z.eq_dec r (present t)) (present t)) by (symmetry; now apply perm_remove).
      apply Permutation_sym in P. pose proof (Permutation_NoDup P G3) as Q. now inversion Q.
    + intro Q. apply in_remove in Q. tauto.
  - assert (Hi : In r (rows (tr (index t)))) by (eapply Permutation_in; [apply Permutation_sym; exact G2|exact Hr]).
    destruct (remove_ok cmp _ TO _ r G1 Hi) as (x' & Y1 & Y2 & (L & R & Y3 & Y4) & _). rewrite Ha in Y1. injection Y1 as <-.
    assert (Hn : ~ In r (L ++ R)). { assert (Q : NoDup (rows (tr (index t)))) by (eapply Permutation_NoDup; [symmetry; exact G2|exact G3]). rewrite Y3 in Q. now apply NoDup_remove_2 in Q. }
    assert (I' : inv cmp (set_value (value t) r k) x).
    { apply (inv_ext (value t)); [|exact Y2]. intros e He. unfold set_value. destruct (Z.eqb_spec e r) as [->|]; [|reflexivity]. rewrite Y4 in He. contradiction. }
    rewrite nodes_ids in Hf. destruct (add_ok cmp _ TO _ r f I' Hf0 Hf) as (y' & Z1 & Z2 & (L' & R' & Z3 & Z4) & _). rewrite Hb in Z1. injection Z1 as <-.
    constructor; cbn [value index present]; auto.
    rewrite Z4, <- Permutation_middle, <- Z3, Y4, Permutation_middle, <- Y3. exact G2.
Qed.
Lemma good_history t : history K cmp t -> good t.
Proof.
  induction 1 as [v root Hr|t u _ IH Hc]; [|eapply good_change; eauto].
  constructor; cbn; [now apply inv_new|constructor|constructor|tauto].
Qed.

Lemma mirror t : history K cmp t ->
  Permutation (rows (tr (index t))) (present t) /\ sorted cmp (value t) (rows (tr (index t))) /\ balanced (tr (index t)) /\ linked (index t).
Proof.
  intro H. destruct (good_history t H) as [[I1 I2 I3 I4 I5 I6] G2 G3 G4]. split; [exact G2|]. split; [rewrite rows_flat; exact I5|].
  split; [now apply avl_balanced|now apply chain_linked].
Qed.
Lemma occupancy t : history K cmp t -> present t <> [] -> occupied (tr (index t)).
Proof.
  intros H Hp. destruct (good_history t H) as [[I1 I2 I3 I4 I5 I6] G2 G3 G4]. destruct I4 as [(c & Et & Ee & _)|[_ W]].
  - exfalso. rewrite Et in G2. cbn in G2. rewrite Ee in G2. apply Permutation_nil in G2. contradiction.
  - clear - W. induction (tr (index t)) as [|c lh rh l IHl r IHr]; [exact I|]. cbn [cells] in W. apply Forall_app in W. destruct W as [W1 W2]. inversion_clear W2 as [|? ? Wc W3].
    cbn [occupied]. split; [|auto]. destruct Wc as [C1 C2 _ _]. unfold node_size in C2. split; [|exact C2]. destruct (els c); [contradiction|cbn; lia].
Qed.
Lemma search_spec t k : history K cmp t -> exists v, search_index K cmp (value t) (index t) k = Some v /\
  (v <> 0 -> In v (present t) /\ cmp (value t v) k = Eq) /\ (v = 0 -> forall e, In e (present t) -> cmp (value t e) k <> Eq).
Proof.
  intro H. destruct (good_history t H) as [G1 G2 G3 G4]. destruct (search_ok cmp (value t) TO (index t) k G1) as [(v & S1 & S2 & S3)|[S1 S2]].
  - exists v. split; [exact S1|]. assert (Hv : In v (present t)) by (eapply Permutation_in; eauto). split; [auto|]. intros ->. contradiction.
  - exists 0. split; [exact S1|]. split; [congruence|]. intros _ e He. apply S2. eapply Permutation_in; [symmetry; exact G2|exact He].
Qed.
Lemma add_works t r k f : history K cmp t -> ~ In r (present t) -> f <> 0 -> ~ In f (nodes (tr (index t))) ->
  exists x, add_row K cmp (set_value (value t) r k) (index t) r f = Some (x, 0).
Proof.
  intros H Hr Hf0 Hf. destruct (good_history t H) as [G1 G2 G3 G4]. rewrite nodes_ids in Hf.
  destruct (add_ok cmp (set_value (value t) r k) TO (index t) r f) as (y & Y1 & _); [|exact Hf0|exact Hf|eauto].
  apply (inv_ext (value t)); [|exact G1]. intros e He. unfold set_value. destruct (Z.eqb_spec e r) as [->|]; [|reflexivity]. exfalso. apply Hr. eapply Permutation_in; eauto.
Qed.
Lemma remove_works t r : history K cmp t -> In r (present t) -> exists x, remove_row K cmp (value t) (index t) r = Some (x, 0).
Proof.
  intros H Hr. destruct (good_history t H) as [G1 G2 G3 G4].
  destruct (remove_ok cmp (value t) TO (index t) r G1) as (y & Y1 & _); [eapply Permutation_in; [symmetry; exact G2|exact Hr]|eauto].
Qed.
Lemma remove_nothing t r : history K cmp t -> ~ In r (present t) ->
  exists e, remove_row K cmp (value t) (index t) r = Some (index t, e) /\ (e = -2 \/ e = -3).
Proof.
  intros H Hr. destruct (good_history t H) as [G1 G2 G3 G4]. apply (remove_absent cmp (value t) TO); [exact G1|]. intro Q. apply Hr. eapply Permutation_in; eauto.
Qed.
End E.

(* ---- histories by computation ---- *)
Definition step_of (o : Z * Z * Z) (t : table Z) : option (table Z) :=
  let '(r, k, f) := o in
  if f =? 0 then
    if existsb (Z.eqb r) (present t) then
      match remove_row Z Z.compare (value t) (index t) r with
      | Some (x, 0) => Some {| present := remove Z.eq_dec r (present t); value := value t; index := x |}
      | _ => None
      end
    else None
  else if (r =? 0) || existsb (Z.eqb r) (present t) || existsb (Z.eqb f) (nodes (tr (index t))) then None
  else
    match add_row Z Z.compare (set_value (value t) r k) (index t) r f with
    | Some (x, 0) => Some {| present := r :: present t; value := set_value (value t) r k; index := x |}
    | _ => None
    end.
Fixpoint run (l : list (Z * Z * Z)) (t : table Z) : option (table Z) :=
  match l with
  | [] => Some t
  | o :: l => match step_of o t with Some u => run l u | None => None end
  end.
Lemma exb r l : existsb (Z.eqb r) l = true <-> In r l.
Proof. rewrite existsb_exists. split; [intros (e & H1 & H2); apply Z.eqb_eq in H2; now subst|intro H; exists r; split; [exact H|apply Z.eqb_refl]]. Qed.
Lemma step_change o t u : step_of o t = Some u -> change Z Z.compare t u.
Proof.
  destruct o as [[r k] f]. unfold step_of. destruct (Z.eqb_spec f 0).
  - destruct (existsb (Z.eqb r) (present t)) eqn:E1; [|discriminate]. destruct (remove_row _ _ _ _ _) as [[x [| |]]|] eqn:E2; try discriminate. intro H. injection H as <-.
    apply ch_del; [now apply exb|exact E2].
  - destruct (Z.eqb_spec r 0); [discriminate|]. cbn [orb]. destruct (existsb (Z.eqb r) (present t)) eqn:E1; [discriminate|]. cbn [orb].
    destruct (existsb (Z.eqb f) (nodes (tr (index t)))) eqn:E2; [discriminate|]. destruct (add_row _ _ _ _ _ _) as [[x [| |]]|] eqn:E3; try discriminate. intro H. injection H as <-.
    apply (ch_add Z Z.compare t r k f x); auto; rewrite <- exb; congruence.
Qed.
Lemma run_history l : forall t u, history Z Z.compare t -> run l t = Some u -> history Z Z.compare u.
Proof.
  induction l as [|o l IH]; intros t u H R; cbn in R; [now injection R as <-|]. destruct (step_of o t) as [v|] eqn:E1; [|discriminate].
  eapply IH; [|exact R]. eapply h_step; [exact H|]. eapply step_change; exact E1.
Qed.
