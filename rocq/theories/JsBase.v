(** Proof vocabulary for reading formulas: the shapes of the lists before and after reading. *)
From Coq Require Import ZArith Lia Arith DecimalString DecimalZ DecimalPos String Ascii Bool List.
From Verif Require Import ClausModel ClausSpec JsModel JsSpec.
Import ListNotations.
Open Scope string_scope.
Open Scope list_scope.

(** ** Results that do not depend on the fuel *)
Definition runs {A} (g : nat -> res A) (r : A) : Prop := exists n0, forall n, n0 <= n -> g n = Done r.
Lemma runs_S {A} (g h : nat -> res A) r : (forall n, g (S n) = h n) -> runs h r -> runs g r.
Proof.
  intros E [n0 H]. exists (S n0). intros [|n] L; [lia|]. rewrite E. apply H. lia.
Qed.
Lemma runs_bind {A B} (g : nat -> res A) (k : nat -> A -> res B) a b :
  runs g a -> runs (fun n => k n a) b -> runs (fun n => bind (g n) (k n)) b.
Proof.
  intros [n1 H1] [n2 H2]. exists (n1 + n2). intros n L. rewrite H1 by lia. cbn. apply H2. lia.
Qed.
Lemma runs_done {A} (a : A) : runs (fun _ => Done a) a.
Proof. exists 0. reflexivity. Qed.
Lemma runs_ext {A} (g h : nat -> res A) r : (forall n, g n = h n) -> runs h r -> runs g r.
Proof. intros E [n0 H]. exists n0. intros n L. rewrite E. auto. Qed.
Lemma runs_fun {A} (g : nat -> res A) a b : runs g a -> runs g b -> a = b.
Proof.
  intros [n H] [m K]. specialize (H (n + m) ltac:(lia)). specialize (K (n + m) ltac:(lia)). congruence.
Qed.

(** ** Strings *)
Lemma mems_in s l : mems s l = true <-> In s l.
Proof.
  unfold mems. rewrite existsb_exists. split.
  - intros (x & I & E). apply String.eqb_eq in E. now subst.
  - intros I. exists s. split; [exact I|apply String.eqb_refl].
Qed.
Lemma mems_out s l : ~ In s l -> mems s l = false.
Proof. intros H. destruct (mems s l) eqn:E; [apply mems_in in E; contradiction|reflexivity]. Qed.
Lemma is_one_sa a l : is_one (Sa a) l = mems (astr a) l.
Proof. reflexivity. Qed.
Lemma eqb_out (s : string) t : s <> t -> String.eqb s t = false.
Proof. apply String.eqb_neq. Qed.

(** A name that no test of the reader takes for an operator *)
Definition calm (s : string) : Prop := s <> "" /\ ~ In s reserved.
Lemma name_calm s : name_ok s -> calm s.
Proof. intros (H & _ & K & _). now split. Qed.
Lemma reserved_first s : In s reserved -> qvar s = false /\ cap s = false.
Proof.
  intros H. cbn in H.
  repeat (destruct H as [<-|H]; [split; reflexivity|]). contradiction.
Qed.
Lemma var_calm s : var_name s -> calm s.
Proof.
  intros H. split.
  - intros ->. destruct H as [H|H]; cbn in H; discriminate.
  - intros I. apply reserved_first in I as [A B]. destruct H; congruence.
Qed.
Lemma calm_out s t : calm s -> In t reserved -> s <> t.
Proof. intros [_ H] I ->. contradiction. Qed.
Lemma calm_mems s l : calm s -> incl l reserved -> mems s l = false.
Proof. intros [_ H] I. apply mems_out. intros K. apply H, I, K. Qed.
Ltac inres := repeat (intros ? ?; cbn in *; intuition (subst; auto 40)).

Lemma anon_calm s : calm s -> anon s = Sym TAnon s.
Proof.
  intros C. unfold anon.
  rewrite !(eqb_out s) by (apply calm_out; [exact C|cbn; auto 40]). reflexivity.
Qed.

(** ** Numbers *)
Lemma to_int_nil z : Z.to_int z <> Decimal.Pos Decimal.Nil /\ Z.to_int z <> Decimal.Neg Decimal.Nil.
Proof.
  destruct z; cbn; split; try discriminate; intros H; injection H as H;
    now apply DecimalPos.Unsigned.to_uint_nonnil in H.
Qed.
Lemma zdec_back z : NilZero.int_of_string (zdec z) = Some (Z.to_int z).
Proof. unfold zdec. destruct (to_int_nil z). now apply NilZero.isi. Qed.
Lemma zdec_out z : ~ In (zdec z) ["="; "!="; "+"; "*"; "-"; "/"; ""].
Proof.
  unfold zdec. destruct (to_int_nil z) as [A B].
  destruct (Z.to_int z) as [d|d]; destruct d; try congruence; cbn; intuition discriminate.
Qed.
Lemma w32_id z : int32 z -> w32 z = z.
Proof. unfold int32, w32. intros H. rewrite Z.mod_small; lia. Qed.
Lemma stored_int head z : int32 z -> stored head (Sym TOther (zdec z)) = KInt z.
Proof.
  intros H. unfold stored. cbn [astr].
  assert (R : renamed (zdec z) = None).
  { unfold renamed, zdec. destruct (to_int_nil z) as [A B].
    destruct (Z.to_int z) as [d|d]; destruct d; try congruence; reflexivity. }
  rewrite R. replace (if head then None else None) with (@None string) by (destruct head; reflexivity).
  cbn [stored_name]. rewrite zdec_back, DecimalZ.of_to, w32_id by exact H. reflexivity.
Qed.

(** ** Terms: as read from JSON or as already read ([inT]); as left by the reader ([outT]) *)
Definition head_in (f : string) (a : atom) : Prop := a = Sym TUri f \/ a = Sym TAnon f.
Definition same_key (f : string) : Prop := stored true (Sym TUri f) = stored true (Sym TAnon f).
Definition head_out (f : string) (a : atom) : Prop := a = Sym TAnon f \/ a = Sym TUri f /\ same_key f.
Inductive inT : fterm -> sx -> Prop :=
| IT_var x : inT (TV x) (Sa (Sym TUri x))
| IT_cst c a : head_in c a -> inT (TC c) (Sa a)
| IT_num z : inT (TN z) (Sa (Sym TOther (zdec z)))
| IT_app f a ts xs : head_in f a -> Forall2 inT ts xs -> inT (TF f ts) (Sl (Sa a :: xs))
| IT_op f a b x y : In f ["+"; "-"; "*"; "/"] -> inT a x -> inT b y -> inT (TF f [a; b]) (Sl [x; Sa (Sym TUri f); y]).
Inductive outT : fterm -> sx -> Prop :=
| OT_var x : outT (TV x) (Sa (Sym TUri x))
| OT_cst c : outT (TC c) (Sa (Sym TAnon c))
| OT_num z : outT (TN z) (Sa (Sym TOther (zdec z)))
| OT_app f a ts xs : head_out f a -> Forall2 outT ts xs -> outT (TF f ts) (Sl (Sa a :: xs)).

Fixpoint tsize (t : fterm) : nat :=
  match t with TF _ ts => S (fold_right plus 0 (map tsize ts)) | _ => 1 end.
Lemma tsize_in t ts : In t ts -> tsize t <= fold_right plus 0 (map tsize ts).
Proof. induction ts as [|u r IH]; cbn; [tauto|]. intros [<-|H]; [lia|]. specialize (IH H). lia. Qed.
Lemma Forall2_in_l {A B} (R : A -> B -> Prop) l m x : Forall2 R l m -> In x l -> exists y, In y m /\ R x y.
Proof.
  induction 1; [contradiction|]. intros [<-|H1].
  - eauto using in_eq.
  - destruct (IHForall2 H1) as (y' & I & J). eauto using in_cons.
Qed.
Lemma Forall2_mono {A B} (R S : A -> B -> Prop) l m :
  (forall x y, In x l -> R x y -> S x y) -> Forall2 R l m -> Forall2 S l m.
Proof.
  intros H F. induction F; constructor.
  - apply H; [left; reflexivity|assumption].
  - apply IHF. intros. apply H; [right; assumption|assumption].
Qed.
Lemma head_out_in f a : head_out f a -> head_in f a.
Proof. intros [->|[-> _]]; [right|left]; reflexivity. Qed.
Lemma outT_inT : forall k t x, tsize t <= k -> outT t x -> inT t x.
Proof.
  induction k as [|k IH]; intros t x L H; [destruct t; cbn in L; lia|].
  inversion H; subst; try (constructor; fail).
  - apply IT_cst. right. reflexivity.
  - apply IT_app; [now apply head_out_in|].
    eapply Forall2_mono; [|exact H1]. intros t u I R. apply IH; [|exact R].
    apply tsize_in in I. cbn in L. lia.
Qed.
Lemma outT_in t x : outT t x -> inT t x.
Proof. apply outT_inT with (k := tsize t). lia. Qed.
Lemma spells_inT : forall k t j, tsize t <= k -> spellsT t j -> inT t (raw j).
Proof.
  induction k as [|k IH]; intros t j L H; [destruct t; cbn in L; lia|].
  inversion H; subst; cbn.
  - constructor.
  - constructor. left. reflexivity.
  - constructor.
  - apply IT_app; [left; reflexivity|]. clear H. cbn in L.
    assert (F : forall t', In t' ts -> tsize t' <= k) by (intros t' I; apply tsize_in in I; lia). clear L.
    induction H0; cbn; constructor.
    + apply IH; [apply F; left; reflexivity|assumption].
    + apply IHForall2. intros. apply F. right. assumption.
  - cbn in L. apply IT_op; [assumption| |]; apply IH; try assumption; lia.
Qed.
Lemma spells_in t j : spellsT t j -> inT t (raw j).
Proof. apply spells_inT with (k := tsize t). lia. Qed.
Lemma spells_ins ts js : Forall2 spellsT ts js -> Forall2 inT ts (map raw js).
Proof. induction 1; cbn; constructor; [now apply spells_in|assumption]. Qed.

(** What a term looks like to the tests on neighbours in a list *)
Lemma legal_all bd ts t : fold_right and True (map (legalT bd) ts) -> In t ts -> legalT bd t.
Proof. induction ts as [|u r IH]; cbn; [tauto|]. intros [A B] [<-|I]; auto. Qed.
Definition quiet (x : sx) : Prop :=
  nul_atom x = false /\ nul_uri x = false /\ is_eq_op x = false /\ is_connective x = false /\
  is_one x ["="; "!="] = false /\ is_one x ["+"; "*"; "-"; "/"] = false.
Lemma quiet_name a : calm (astr a) -> quiet (Sa a).
Proof.
  intros C. pose proof C as [N _].
  assert (E : nul a = false) by (unfold nul; now apply eqb_out).
  unfold quiet. cbn [nul_atom nul_uri is_eq_op is_connective]. rewrite E, andb_false_r, !is_one_sa.
  rewrite !calm_mems by (try exact C; intros t I; cbn in I; cbn; intuition (subst; auto 40)).
  rewrite !andb_false_r. repeat split; reflexivity.
Qed.
Lemma quiet_num z : quiet (Sa (Sym TOther (zdec z))).
Proof.
  pose proof (zdec_out z) as H. unfold quiet. cbn [nul_atom nul_uri is_eq_op is_connective is_uri is_anon orb andb].
  rewrite !is_one_sa. cbn [astr]. unfold nul. cbn [astr].
  rewrite eqb_out by (intros E; apply H; rewrite E; cbn; auto 10).
  rewrite !mems_out by (intros I; apply H; cbn in I; cbn; intuition (auto 10)).
  repeat split; reflexivity.
Qed.
Lemma quiet_list l : quiet (Sl l).
Proof. repeat split; reflexivity. Qed.
Lemma quiet_term bd t x : legalT bd t -> inT t x -> quiet x.
Proof.
  intros L H. inversion H; subst; try apply quiet_list; try apply quiet_num.
  - apply quiet_name. cbn. cbn in L. apply var_calm. destruct L as [L|[L _]]; [now left|now right].
  - apply quiet_name. destruct L as [L _]. apply name_calm in L. destruct H0 as [->| ->]; exact L.
Qed.

(** ** Free variables kept by the reader *)
Definition fvspec (bd S fv fv' : list string) : Prop := forall y, In y fv' <-> In y fv \/ (In y S /\ ~ In y bd).
Lemma fvspec_nil bd fv : fvspec bd [] fv fv.
Proof. intros y. cbn. tauto. Qed.
Lemma fvspec_app bd A B f g h : fvspec bd A f g -> fvspec bd B g h -> fvspec bd (A ++ B) f h.
Proof. intros H K y. rewrite (K y), (H y), in_app_iff. tauto. Qed.
Lemma fvspec_set bd A B f g : (forall y, In y A <-> In y B) -> fvspec bd A f g -> fvspec bd B f g.
Proof. intros E H y. rewrite (H y), (E y). reflexivity. Qed.

Definition bd_ok (bd : list string) : Prop := Forall var_name bd.
Lemma bd_out bd s : bd_ok bd -> ~ var_name s -> mems s bd = false.
Proof.
  intros B N. apply mems_out. intros I. apply N. unfold bd_ok in B. rewrite Forall_forall in B. auto.
Qed.

(** ** Atoms *)
Lemma prefix_qvar s : String.prefix "?:" s = false -> qvar s = false.
Proof. intros H. unfold qvar. rewrite H. reflexivity. Qed.
Lemma tatom_var bd fv x pos : qvar x = true \/ cap x = true /\ In x bd ->
  exists fv', tatom pos bd (Sym TUri x) fv = Done (Sa (Sym TUri x), fv') /\ fvspec bd [x] fv fv'.
Proof.
  intros L. unfold tatom, nul. cbn [astr is_uri is_anon negb andb].
  assert (N : x <> "") by (intros ->; destruct L as [L|[L _]]; cbn in L; discriminate).
  rewrite (eqb_out x "" N).
  destruct (qvar x) eqn:Q.
  - eexists. split; [reflexivity|]. intros y.
    destruct (mems x fv) eqn:E; cbn [orb].
    + apply mems_in in E. split; [tauto|]. intros [H|[[<-|[]] _]]; assumption.
    + destruct (mems x bd) eqn:E2.
      * apply mems_in in E2. split; [tauto|]. intros [H|[[<-|[]] H]]; [assumption|contradiction].
      * cbn. assert (~ In x bd) by (intros I; apply mems_in in I; congruence).
        split; [intros [<-|H1]; auto|]. intros [H1|[[<-|[]] H1]]; auto.
  - destruct L as [L|[_ I]]; [discriminate|].
    rewrite (proj2 (mems_in x bd) I). eexists. split; [reflexivity|]. intros y. cbn.
    split; [tauto|]. intros [H|[[<-|[]] H]]; [assumption|contradiction].
Qed.
Lemma tatom_name bd fv a s pos : s <> "" -> String.prefix "?:" s = false -> s <> "@type" -> ~ In s bd -> head_in s a ->
  tatom pos bd a fv = Done (Sa (match a with Sym TUri _ => anon s | _ => a end), fv).
Proof.
  intros N P T B H. unfold tatom, nul.
  assert (E : astr a = s) by (destruct H as [->| ->]; reflexivity). rewrite E.
  rewrite (eqb_out s "" N), (prefix_qvar s P), (mems_out s bd B), (eqb_out s "@type" T), P.
  destruct H as [->| ->]; reflexivity.
Qed.
Lemma tatom_calm bd fv a s pos : name_ok s -> ~ In s bd -> head_in s a ->
  tatom pos bd a fv = Done (Sa (Sym TAnon s), fv).
Proof.
  intros L B H. pose proof (name_calm s L) as C. destruct L as (N & P & R).
  rewrite (tatom_name bd fv a s pos); try assumption.
  - rewrite (anon_calm s C). destruct H as [->| ->]; reflexivity.
  - apply calm_out; [exact C|cbn; auto 40].
Qed.
Lemma tatom_op bd fv a s pos : In s ["+"; "-"; "*"; "/"; "="] -> ~ In s bd -> head_in s a ->
  tatom pos bd a fv = Done (Sa (Sym TAnon s), fv).
Proof.
  intros L B H.
  assert (E : s <> "" /\ String.prefix "?:" s = false /\ s <> "@type" /\ anon s = Sym TAnon s).
  { cbn in L. repeat (destruct L as [<-|L]; [repeat split; try discriminate; reflexivity|]). contradiction. }
  destruct E as (N & P & T & A).
  rewrite (tatom_name bd fv a s pos) by assumption. rewrite A. destruct H as [->| ->]; reflexivity.
Qed.
Lemma tatom_conn bd fv c pos : bd_ok bd -> tatom pos bd (Con c) fv = Done (Sa (Con c), fv).
Proof.
  intros B. unfold tatom.
  rewrite (bd_out bd (astr (Con c)) B) by (destruct c; intros [H|H]; cbn in H; discriminate).
  destruct c; reflexivity.
Qed.
Lemma tatom_truth bd fv (b : bool) pos : bd_ok bd ->
  tatom pos bd (Sym TAnon (if b then "$true" else "$false")) fv = Done (Sa (Sym TAnon (if b then "$true" else "$false")), fv).
Proof.
  intros B. unfold tatom.
  rewrite (bd_out bd _ B) by (destruct b; intros [H|H]; cbn in H; discriminate).
  destruct b; reflexivity.
Qed.
