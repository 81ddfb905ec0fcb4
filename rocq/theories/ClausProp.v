(** The lemmas behind PropClaus. *)
From Coq Require Import List String Bool Arith Lia.
From Verif Require Import ClausModel ClausSpec ClausProof ClausMini ClausSk ClausDist ClausEnd.
Import ListNotations.
Open Scope string_scope.

Lemma c23 f : nnf true f -> spelling_ok f -> exists f',
  miniscope f = Some f' /\ nnf true f' /\ (forall D (I : interp D) e, sem I e f' <-> sem I e f).
Proof. intros N S. destruct (miniscope_main f N S) as (f' & E & N' & H & _). eauto. Qed.

Definition vx := Sym TVar "X". Definition ux := Sym TUri "X".
Definition pp (a : string) (l : list atom) := Sl (Sa (Sym TUri a) :: map Sa l).
Definition many := Sl [Sa (Con CAll); Sl (map Sa [vx]); Sl [Sa (Con CAnd); pp "p" [vx]; pp "q" [vx]; pp "r" [vx]]].
Lemma c23_many : exists f f' (I : interp unit) e, nnf false f /\ spelling_ok f /\
  miniscope f = Some f' /\ ~ (sem I e f' <-> sem I e f).
Proof.
  eexists many, _, (mkI (fun _ => tt) (fun _ _ => tt) (fun a _ => atom_eqb a (Sym TUri "r") = false)), none.
  split; [|split; [|split; [vm_compute; reflexivity|]]].
  - apply N_q; auto; [repeat constructor|]. apply N_many; auto; [cbn; lia|].
    repeat constructor.
  - intros a b. cbn. intuition (subst; try reflexivity; discriminate).
  - intros [H _]. 
    assert (K : sem (mkI (fun _ => tt) (fun _ _ => tt) (fun a _ => atom_eqb a (Sym TUri "r") = false)) none many).
    { apply H. cbn. repeat split; intros; reflexivity. }
    change many with (Qf CAll [vx] (Sl [Sa (Con CAnd); pp "p" [vx]; pp "q" [vx]; pp "r" [vx]])) in K. rewrite sem_all in K.
    specialize (K (fun a => if atom_eqb a vx then Some tt else None)).
    cbn in K. destruct K as (_ & _ & K & _); [|discriminate].
    intro a. split; intro Ha.
    + destruct Ha as [<-|[]]. cbn. discriminate.
    + destruct (atom_eqb a vx) eqn:E; [|reflexivity]. apply atom_eqb_eq in E. subst. destruct Ha. left; auto.
Qed.

(** exists X (all X' p(X,X')), X and X' of the same spelling but of two types *)
Definition mixed := Sl [Sa (Con CEx); Sl (map Sa [ux]); Sl [Sa (Con CAll); Sl (map Sa [vx]); pp "p" [ux; vx]]].
Lemma c23_spell : exists f f' (I : interp bool) e, nnf true f /\
  miniscope f = Some f' /\ ~ (sem I e f' <-> sem I e f).
Proof.
  pose (I := mkI (fun _ => false) (fun _ _ => false) (fun _ ds => match ds with b :: _ => b = true | [] => False end)).
  eexists mixed, _, I, none. split; [|split; [vm_compute; reflexivity|]].
  - repeat (apply N_q; auto; [repeat constructor|]). repeat constructor.
  - intros [_ H]. 
    assert (K : sem I none mixed).
    { unfold mixed. apply (sem_ex I none [ux]). exists (fun a => if atom_eqb a ux then Some true else None). split.
      - intro a. split; intro Ha; [destruct Ha as [<-|[]]; discriminate|].
        destruct (atom_eqb a ux) eqn:E; [|reflexivity]. apply atom_eqb_eq in E. subst. destruct Ha. left; auto.
      - apply (sem_all I _ [vx]). intros e' V. cbn. destruct (V ux) as [_ W]. rewrite W; [reflexivity|]. intros [E|[]]. discriminate. }
    apply H in K. clear H. revert K.
    match goal with |- sem _ _ ?g -> _ => change g with (Qf CAll [ux] (pp "p" [ux; vx])) end.
    rewrite sem_all. intro K.
    specialize (K (fun a => if atom_eqb a ux then Some false else None)). cbn in K.
    assert (X : false = true); [|discriminate]. apply K. intro a. split; intro Ha; [destruct Ha as [<-|[]]; discriminate|].
    destruct (atom_eqb a ux) eqn:E; [|reflexivity]. apply atom_eqb_eq in E. subst. destruct Ha. left; auto.
Qed.

Lemma c24 f k : nnf true f -> (forall b, In b (binders f) -> bindable b = true) ->
  (forall h, In h (fheads f) -> ~ In h (binders f)) -> (forall a, In a (fargs f) -> is_tvar a = false) ->
  (forall i, k < i -> ~ In (skatom i) (syms f)) ->
  exists f' n' k', skolemize f [] 0 k = Some (f', n', k') /\ qf f' /\
    (forall D (I : interp D), (forall u, full u -> sem I u f') -> sem I none f) /\
    (forall D (I : interp D), sem I none f ->
       exists I', same_but (fun a => exists i, k < i <= k' /\ a = skatom i) I I' /\ forall u, full u -> sem I' u f').
Proof.
  intros N HB HH HT HK. destruct (skolemize_ok (fun v => In v (binders f)) f N [] 0 k) as (f' & n' & k' & E & P); auto.
  { intros v t []. }
  { intros v []. }
  { intros a Ha T. rewrite HT in T by auto. discriminate. }
  { intros a i Ha Hi ->. apply (HK i); auto. }
  destruct P as (_ & _ & Q & _ & _ & Sd & Cp). exists f', n', k'. split; [auto|]. split; [auto|]. split; intros D I H.
  - destruct (full_exists I) as [u F]. apply (sem_ext f D I (e_of I [] u) none); [reflexivity|]. apply (Sd D I u); auto.
  - destruct (Cp D I) as (I' & SI & K). exists I'. split; auto.
Qed.

Lemma c25 fuel strat f m r s : qf f -> (forall i, m < i -> ~ In (dfatom i) (syms f)) ->
  distribute fuel strat f false (mkd m None) = Some (r, s) ->
  let out := match d_defs s with None => r | Some d => mk_and r d end in
  cnf out /\
  (forall D (I : interp D), (forall u, full u -> sem I u out) -> forall u, full u -> sem I u f) /\
  (forall D (I : interp D), (forall u, full u -> sem I u f) ->
     exists I', same_but (fun a => exists i, m < i <= d_nr s /\ a = dfatom i) I I' /\ forall u, full u -> sem I' u out).
Proof.
  intros Q FR E. destruct (dist_ok fuel strat f false _ _ _ Q E) as [[P4 (Q4 & Nm4 & S4)] C4].
  destruct P4 as (DC & Dm & Dn & _ & DX). cbn [d_nr d_defs] in *.
  assert (OUT : forall D (I : interp D), (forall u, full u -> sem I u (match d_defs s with None => r | Some d => mk_and r d end)) <->
     holds I (d_defs s) /\ forall u, full u -> sem I u r).
  { intros D I. destruct (d_defs s); cbn [holds]; [|tauto]. split.
    - intro H. split; intros u F; specialize (H u F); apply sem_and2 in H; tauto.
    - intros [H1 H2] u F. apply sem_and2. auto. }
  split; [|split].
  - unfold dcnf in DC. cbn [d_defs] in DC. specialize (DC Logic.I). destruct (d_defs s); auto. apply F_and; auto.
  - intros D I H u F. apply OUT in H as [H1 H2]. apply (S4 D I H1 u F); auto.
  - intros D I H. destruct (DX FR) with (D := D) (I := I) as (I2 & SI2 & K2); [intros i Hi []|exact Logic.I|].
    exists I2. split; [exact SI2|]. apply OUT. split; auto. intros u F. apply (S4 D I2 K2 u F).
    apply (sem_same _ I I2 f SI2 (dfN_con _ _)); auto. intros a Ha (i & Hi & ->). apply (FR i); auto. lia.
Qed.
Lemma c25_pt fuel strat f indef s r s' : qf f -> distribute fuel strat f indef s = Some (r, s') ->
  forall D (I : interp D), holds I (d_defs s') -> forall u, full u -> (sem I u r <-> sem I u f).
Proof. intros Q E. destruct (dist_ok fuel strat f indef s r s' Q E) as [[_ (_ & _ & S4)] _]. exact S4. Qed.
Lemma c26_sat isv fuel strat frm k m out k' m' : input_ok isv frm k m -> ~ atomic frm ->
  clausify isv fuel strat frm k m = Some (out, k', m') ->
  exists cls, flatten out = Some cls /\
    forall D, (exists I : interp D, clauses_true I cls) <-> (exists I : interp D, formula_true isv I frm).
Proof.
  intros IO NA E. destruct (clausify_main _ _ _ _ _ _ _ _ _ IO NA E) as (cls & Ec & _ & Sd & Cp). exists cls. split; auto.
  intro D. split; intros [I H]; [eauto|]. destruct (Cp D I H) as (I' & _ & H'). eauto.
Qed.
