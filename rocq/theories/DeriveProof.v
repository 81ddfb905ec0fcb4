(** Soundness of the inference rules. *)
From Coq Require Import List ZArith Bool Lia.
From Verif Require Import Terms UnifySpec TermsProof UnifyModel UnifyProof TrailProof BitsProof MatchModel MatchProof MetaModel
  SubsumeSpec Semantics SemProof BuildModel BuildProof DeriveModel DeriveSpec.
Import ListNotations.
Open Scope Z_scope.

Lemma negpol_spec a b : negpolarities a b = negb (Bool.eqb (meta_is_neg a) (meta_is_neg b)).
Proof.
  unfold negpolarities, meta_is_neg. f_equal.
  assert (H : forall m, Z.land m neg_raw = 0 \/ Z.land m neg_raw = neg_raw).
  { intros m. change neg_raw with (2 ^ 25). destruct (Z.testbit m 25) eqn:E.
    - right. apply Z.bits_inj'. intros k Hk. rewrite Z.land_spec, Z.pow2_bits_eqb by lia.
      destruct (Z.eqb_spec 25 k) as [<-|]; [rewrite E; auto|apply andb_false_r].
    - left. apply Z.bits_inj'. intros k Hk. rewrite Z.land_spec, Z.pow2_bits_eqb, Z.bits_0 by lia.
      destruct (Z.eqb_spec 25 k) as [<-|]; [rewrite E; auto|apply andb_false_r]. }
  assert (Hn : neg_raw <> 0) by discriminate.
  destruct (H a) as [-> | ->], (H b) as [-> | ->]; simpl; auto.
Qed.

Lemma of_spec x y : negpolarities x y = true -> meta_is_neg x = negb (meta_is_neg y).
Proof. rewrite negpol_spec. destruct (meta_is_neg x), (meta_is_neg y); simpl; congruence. Qed.
Lemma same_spec x y : negpolarities x y = false -> meta_is_neg x = meta_is_neg y.
Proof. rewrite negpol_spec. destruct (meta_is_neg x), (meta_is_neg y); simpl; congruence. Qed.

Section Sound.
  Variable sb : stray_env.
  Variable comp : term -> option term.
  Variable bk : Z.
  Variable nb : nat.
  Variable eqc : cst.
  Variable M : interp.
  Hypothesis Hcomp : agrees_with eqc comp M.

  Notation holdsl := (lit_holds eqc M).
  Notation holdsc := (clause_holds eqc M).

  Lemma find_equal_ok meta a r :
    match find_equal sb meta a r with
    | FSame => In (meta_is_neg meta, a) (derived r)
    | FOpposite => In (negb (meta_is_neg meta), a) (derived r)
    | _ => True
    end.
  Proof.
    induction r as [|x r IH]; simpl; auto.
    pose proof (equal_term_spec sb a (snd x)) as He. destruct (equal_term sb a (snd x)).
    - subst a. destruct (negpolarities meta (fst x)) eqn:E; simpl.
      + left. apply of_spec in E. rewrite E, negb_involutive. reflexivity.
      + left. apply same_spec in E. rewrite E. reflexivity.
    - destruct (find_equal sb meta a r); auto.
    - auto.
  Qed.

  Lemma derived_app r1 r2 : derived (r1 ++ r2) = derived r1 ++ derived r2.
  Proof. apply map_app. Qed.

  Lemma clause_holds_app v c1 c2 : holdsc v (c1 ++ c2) <-> holdsc v c1 \/ holdsc v c2.
  Proof.
    unfold clause_holds. split.
    - intros (l&Hl&H). apply in_app_or in Hl as [|]; eauto.
    - intros [(l&Hl&H)|(l&Hl&H)]; exists l; rewrite in_app_iff; auto.
  Qed.

  Lemma clause_holds_one v l : holdsc v [l] <-> holdsl v l.
  Proof.
    unfold clause_holds. split; [intros (k&[<-|[]]&H); auto|]. intros H; exists l; simpl; auto.
  Qed.

  (** A literal on the way into the clause: kept, merged or false; or the clause is true. *)
  Lemma add_literal_ok meta a r s v : (forall P : Prop, P \/ ~ P) \/ True ->
    match add_literal sb meta a r s with
    | AOk r' s' => s' = s /\ (holdsc v (derived r') <-> holdsc v (derived r) \/ holdsl v (meta_is_neg meta, a))
    | ADrop w s' => s' = s /\ w = Tautology /\
        ((forall P : Prop, P \/ ~ P) -> holdsc v (derived r) \/ holdsl v (meta_is_neg meta, a))
    | _ => True
    end.
  Proof.
    intros _. unfold add_literal.
    assert (Hdec : match (match find_equal sb meta a r with
              | FSame => AOk r s | FOpposite => ADrop Tautology s
              | FNone => AOk (r ++ [(meta, a)]) s | FStray => AStray end) with
            | AOk r' s' => s' = s /\ (holdsc v (derived r') <-> holdsc v (derived r) \/ holdsl v (meta_is_neg meta, a))
            | ADrop w s' => s' = s /\ w = Tautology /\
               ((forall P : Prop, P \/ ~ P) -> holdsc v (derived r) \/ holdsl v (meta_is_neg meta, a))
            | _ => True end).
    { pose proof (find_equal_ok meta a r) as Hf. destruct (find_equal sb meta a r); auto.
      - split; auto. split; auto. intros [|H]; auto. exists (meta_is_neg meta, a). auto.
      - split; auto. split; auto. intros LEM. destruct (LEM (holds eqc M v a)) as [H|H].
        + destruct (meta_is_neg meta) eqn:E; [left|right; exact H].
          exists (false, a). split; auto.
        + destruct (meta_is_neg meta) eqn:E; [right; exact H|left].
          exists (true, a). split; auto.
      - split; auto. rewrite derived_app, clause_holds_app. simpl. rewrite clause_holds_one. tauto. }
    destruct a as [i|c|fs]; auto. destruct c as [w| | | |]; auto.
    destruct (Z.eqb_spec w w_true) as [->|].
    - assert (Ht : holds eqc M v (TCst (CImm w_true)) <-> True).
      { simpl. destruct (cst_eq_dec (CImm w_true) atrue) as [|n0]; [tauto|]. exfalso. apply n0. reflexivity. }
      destruct (meta_is_neg meta) eqn:E; split; auto.
      + unfold lit_holds. cbn [fst snd]. rewrite Ht. tauto.
      + split; auto. intros _. right. unfold lit_holds. cbn [fst snd]. tauto.
    - destruct (Z.eqb_spec w w_false) as [->|]; auto.
      assert (Ht : holds eqc M v (TCst (CImm w_false)) <-> False).
      { simpl. destruct (cst_eq_dec (CImm w_false) atrue); [discriminate|].
        destruct (cst_eq_dec (CImm w_false) afalse) as [|n1]; [tauto|]. exfalso. apply n1. reflexivity. }
      destruct (meta_is_neg meta) eqn:E; split; auto.
      + split; auto. intros _. right. unfold lit_holds. cbn [fst snd]. tauto.
      + unfold lit_holds. cbn [fst snd]. tauto.
  Qed.

  (** The literals that go into the result, some true under [w]. *)
  Definition rest_holds (cut : option Z) (lits : list clit) (w : Z -> dom M) : Prop :=
    exists l, In l lits /\ is_cut cut l = false /\ holdsl w (lit_of_clit l).

  (** The replaced subterm and the replacement have the same value under [w]. *)
  Definition repl_fits (i : Z) (lits : list clit) (repl : option (Z * term)) (w : Z -> dom M) : Prop :=
    match repl with
    | None => True
    | Some (path, rt) => forall k l, nth_error lits k = Some l -> i + Z.of_nat k = decode_litnr path ->
        fits M w (preorder (latom l)) (decode_pos path) rt
    end.
  Definition repl_ok (repl : option (Z * term)) : Prop :=
    match repl with None => True | Some (path, rt) => fot rt = true /\ 0 < decode_pos path end.

  Lemma repl_fits_tail i l lits repl w : repl_fits i (l :: lits) repl w -> repl_fits (i + 1) lits repl w.
  Proof.
    destruct repl as [[path rt]|]; simpl; auto. intros H k l0 Hk E. apply (H (S k)); auto. lia.
  Qed.

  Definition built (i : Z) (l : clit) (repl : option (Z * term)) (s : bst) : bres :=
    match repl with
    | Some (path, rt) =>
        if i =? decode_litnr path
        then match breplace comp bk nb (decode_pos path) rt (latom l) 0 s with
             | RpOk t _ s' => BOk t s' | RpIllegal s' => BIllegal s' | RpFuel => BFuel
             end
        else build comp bk nb (latom l) s
    | None => build comp bk nb (latom l) s
    end.

  Lemma built_ok i l lits repl s t s' : bgood s -> foa (latom l) = true -> repl_ok repl ->
    built i l repl s = BOk t s' ->
    bgrows s s' /\ bgood s' /\
    forall w v, respects M w (bank (vars s')) -> tied bk M w v -> repl_fits i (l :: lits) repl w ->
      (holds eqc M v t <-> holds eqc M w (latom l)).
  Proof.
    intros Hg Ha Hr. unfold built.
    assert (Hplain : build comp bk nb (latom l) s = BOk t s' ->
      bgrows s s' /\ bgood s' /\
      forall w v, respects M w (bank (vars s')) -> tied bk M w v -> repl_fits i (l :: lits) repl w ->
      (holds eqc M v t <-> holds eqc M w (latom l))).
    { intros E. destruct (build_ok _ _ _ _ _ _ _ Hg E) as [A B]. split; auto. split; auto.
      intros w v R T _. apply (build_holds comp bk eqc M Hcomp nb (latom l) s t s' w v); auto. }
    destruct repl as [[path rt]|]; auto.
    destruct (Z.eqb_spec i (decode_litnr path)) as [E|]; auto.
    destruct (breplace comp bk nb (decode_pos path) rt (latom l) 0 s) as [t1 p s1|s1|] eqn:E1; try discriminate.
    intros E2; injection E2 as -> ->. destruct Hr as [Hr1 Hr2].
    split; [|split].
    - apply (replace_holds comp bk eqc M Hcomp nb _ rt (latom l) s t p s' (fun _ => iodd M []) (fun _ => iodd M []) Hg Ha Hr1 E1 Hr2).
    - apply (replace_holds comp bk eqc M Hcomp nb _ rt (latom l) s t p s' (fun _ => iodd M []) (fun _ => iodd M []) Hg Ha Hr1 E1 Hr2).
    - intros w v R T F.
      destruct (replace_holds comp bk eqc M Hcomp nb _ rt (latom l) s t p s' w v Hg Ha Hr1 E1 Hr2) as (_&_&D).
      apply D; auto. apply (F 0%nat l eq_refl). lia.
  Qed.

  Lemma result_aux_ok : forall lits i cut repl r s, bgood s ->
    (forall l, In l lits -> foa (latom l) = true) -> repl_ok repl ->
    match result_aux sb comp bk nb i lits cut repl r s with
    | AOk r' s' => bgrows s s' /\ bgood s' /\
        forall w v, respects M w (bank (vars s')) -> tied bk M w v -> repl_fits i lits repl w ->
        (holdsc v (derived r') <-> holdsc v (derived r) \/ rest_holds cut lits w)
    | ADrop Tautology s' => bgrows s s' /\ bgood s' /\
        forall w v, respects M w (bank (vars s')) -> tied bk M w v -> repl_fits i lits repl w ->
        (forall P : Prop, P \/ ~ P) -> holdsc v (derived r) \/ rest_holds cut lits w
    | _ => True
    end.
  Proof.
    induction lits as [|l lits IH]; intros i cut repl r s Hg Hf Hr; cbn [result_aux].
    - split; [constructor|]. split; auto. intros w v _ _ _. split; auto.
      intros [|(l&[]&_)]; auto.
    - assert (Hrest : forall w, rest_holds cut (l :: lits) w <->
                (is_cut cut l = false /\ holdsl w (lit_of_clit l)) \/ rest_holds cut lits w).
      { intros w. split.
        - intros (k&[<-|Hk]&H); [left; auto|right; exists k; auto].
        - intros [H|(k&Hk&H)]; [exists l|exists k]; simpl; auto. }
      fold (is_cut cut l). destruct (is_cut cut l) eqn:Ecut.
      + specialize (IH (i + 1) cut repl r s Hg ltac:(intros; apply Hf; simpl; auto) Hr).
        destruct (result_aux sb comp bk nb (i + 1) lits cut repl r s) as [r' s'|[|] s'| |]; auto;
          destruct IH as (A&B&C); split; auto; split; auto; intros w v R T F.
        * rewrite (C w v R T (repl_fits_tail _ _ _ _ _ F)), Hrest. intuition discriminate.
        * intros LEM. rewrite Hrest. specialize (C w v R T (repl_fits_tail _ _ _ _ _ F) LEM). tauto.
      + fold (built i l repl s).
        destruct (built i l repl s) as [t s1|s1|] eqn:Eb; auto.
        destruct (built_ok i l lits repl s t s1 Hg (Hf l (or_introl eq_refl)) Hr Eb) as (G1&G2&Hb).
        assert (Hlit : forall w v, respects M w (bank (vars s1)) -> tied bk M w v -> repl_fits i (l :: lits) repl w ->
           (holdsl v (meta_is_neg (lmeta l), t) <-> holdsl w (lit_of_clit l))).
        { intros w v R T F. specialize (Hb w v R T F). unfold lit_holds, lit_of_clit. simpl.
          destruct (meta_is_neg (lmeta l)); tauto. }
        pose proof (fun v => add_literal_ok (lmeta l) t r s1 v (or_intror I)) as Hadd.
        destruct (add_literal sb (lmeta l) t r s1) as [r1 s2|why s2| |]; auto.
        * assert (s2 = s1) as -> by (apply (Hadd (fun _ => iodd M []))).
          specialize (IH (i + 1) cut repl r1 s1 G2 ltac:(intros; apply Hf; simpl; auto) Hr).
          destruct (result_aux sb comp bk nb (i + 1) lits cut repl r1 s1) as [r' s'|[|] s'| |]; auto;
            destruct IH as (A&B&C); (split; [eapply bgrows_trans; eauto|]); split; auto; intros w v R T F.
          -- rewrite (C w v R T (repl_fits_tail _ _ _ _ _ F)), Hrest.
             destruct (Hadd v) as [_ Ha]. rewrite Ha, (Hlit w v); auto; [tauto|].
             eapply respects_mono; [apply bgrows_ext; exact A|auto].
          -- intros LEM. rewrite Hrest. specialize (C w v R T (repl_fits_tail _ _ _ _ _ F) LEM).
             destruct (Hadd v) as [_ Ha]. rewrite Ha, (Hlit w v) in C; auto; [tauto|].
             eapply respects_mono; [apply bgrows_ext; exact A|auto].
        * destruct (Hadd (fun _ => iodd M [])) as (->&->&_).
          split; auto. split; auto. intros w v R T F LEM. rewrite Hrest.
          destruct (Hadd v) as (_&_&Ha). destruct (Ha LEM) as [H|H]; auto.
          right. left. split; auto. apply (Hlit w v); auto.
  Qed.

  (** Literals are only added. *)
  Lemma result_aux_grows : forall lits i cut repl r s,
    match result_aux sb comp bk nb i lits cut repl r s with
    | AOk r' _ => exists more, r' = r ++ more | _ => True end.
  Proof.
    induction lits as [|l lits IH]; intros i cut repl r s; cbn [result_aux].
    - exists []. rewrite app_nil_r. reflexivity.
    - fold (is_cut cut l). destruct (is_cut cut l); [apply IH|].
      fold (built i l repl s). destruct (built i l repl s) as [t s1|s1|]; auto.
      destruct (add_literal sb (lmeta l) t r s1) as [r1 s2|w s2| |] eqn:Ea; auto.
      specialize (IH (i + 1) cut repl r1 s2).
      destruct (result_aux sb comp bk nb (i + 1) lits cut repl r1 s2) as [r' s'|w s'| |]; auto.
      destruct IH as [more ->].
      assert (Hd : exists m1, r1 = r ++ m1).
      { clear -Ea. unfold add_literal in Ea.
        assert (Hz : exists m, r = r ++ m) by (exists []; rewrite app_nil_r; auto).
        assert (Hf : forall x, match find_equal sb (lmeta l) x r with
              | FSame => AOk r s1 | FOpposite => ADrop Tautology s1
              | FNone => AOk (r ++ [(lmeta l, x)]) s1 | FStray => AStray end = AOk r1 s2 -> exists m1, r1 = r ++ m1).
        { intros x. destruct (find_equal sb (lmeta l) x r); intros E; try discriminate; injection E as <- _; eauto. }
        destruct t as [|[w| | | |]|]; try (apply Hf in Ea; auto; fail).
        destruct (w =? w_true); [|destruct (w =? w_false); [|apply Hf in Ea; auto]];
          destruct (meta_is_neg (lmeta l)); try discriminate; injection Ea as <- _; auto. }
      destruct Hd as [m1 ->]. exists (m1 ++ more). rewrite app_assoc. reflexivity.
  Qed.

  (** Every valuation of the derived clause comes from one of the parents' variables. *)
  Lemma valuation_exists s v : bgood s ->
    exists sg w, exhaustive (bank (vars s)) sg /\ respects M w (bank (vars s)) /\ tied bk M w v /\
      exists v0, w = fun i => eval M v0 (sg i).
  Proof.
    intros [Ha Hu Hf _]. destruct (exhaustive_exists _ Ha) as [sg He].
    set (v0 := fun j => if first_unreal <=? j then v (bk * varsinbank + (j - first_unreal)) else v j).
    exists sg, (fun i => eval M v0 (sg i)). split; auto. split; [|split].
    - apply respects_of_solves; auto. apply He.
    - intros i Hi. destruct He as [_ He]. rewrite He by auto. simpl. unfold v0.
      destruct (Z.leb_spec first_unreal i); [reflexivity|lia].
    - exists v0. reflexivity.
  Qed.

  Lemma vgood_start s : vgood s -> bgood (start_build s).
  Proof. intros (A&B&C&_). split; auto. simpl. lia. Qed.

  Lemma unify_vgood nu x y s r s' : vgood s -> fot x = true -> fot y = true ->
    (forall j, In j (tvars x) -> j < first_unreal) -> (forall j, In j (tvars y) -> j < first_unreal) ->
    unify_term nu x y s = Done r s' -> vgood s'.
  Proof.
    intros (A&B&C&D) Fx Fy Vx Vy E.
    pose proof (unify_uspec nu (fun j => j < first_unreal) x y s A D Vx Vy) as Hu.
    unfold unify_term in E. rewrite E in Hu. destruct Hu as (H1&H2&_).
    split; auto. split; [|split].
    - intros i Hi. destruct (grows_trail _ _ _ H2) as (new&_&_&N1&N2).
      rewrite N2; [auto|]. intros Hin. destruct (N1 i Hin) as [Hlt _]. cbn beta in Hlt. lia.
    - apply (unify_fot nu x y s r s'); auto.
    - apply (grows_ranges _ _ _ H2 D).
  Qed.

  Lemma unify_same nu x y s s' sg : vgood s -> fot x = true -> fot y = true ->
    (forall j, In j (tvars x) -> j < first_unreal) -> (forall j, In j (tvars y) -> j < first_unreal) ->
    unify_term nu x y s = Done true s' -> solves sg (bank s') -> app sg x = app sg y.
  Proof.
    intros (A&B&C&D) Fx Fy Vx Vy E Hs.
    pose proof (unify_uspec nu (fun j => j < first_unreal) x y s A D Vx Vy) as Hu.
    unfold unify_term in E. rewrite E in Hu. destruct Hu as (_&_&H3). apply H3; auto.
  Qed.

  Lemma solves_mono sg b b' : extends b b' -> solves sg b' -> solves sg b.
  Proof. intros He Hs i t E. apply Hs; auto. Qed.

  Lemma proper_lit c l : proper c -> In l (cl_lits c) ->
    foa (latom l) = true /\ fot (latom l) = true /\ forall j, In j (tvars (latom l)) -> j < first_unreal.
  Proof.
    intros [Hf Hr] Hl. assert (foa (latom l) = true).
    { apply (Hf (lit_of_clit l)). apply in_map. auto. }
    split; auto. split; [destruct (latom l); auto; discriminate|]. intros j Hj. eapply Hr; eauto.
  Qed.

  (** The part of a parent that goes into the result, when the parent may be skipped. *)
  Lemma parent_part c w0 r s r' s' : bgood s -> proper c -> (exists l, In l (cl_lits c) /\ lword l = w0) ->
    (if many c then result_aux sb comp bk nb 0 (cl_lits c) (Some w0) None r s else AOk r s) = AOk r' s' ->
    bgrows s s' /\ bgood s' /\
    forall w v, respects M w (bank (vars s')) -> tied bk M w v ->
      (holdsc v (derived r') <-> holdsc v (derived r) \/ rest_holds (Some w0) (cl_lits c) w).
  Proof.
    intros Hg Hp (l0&Hl0&Ew). unfold many.
    destruct (Nat.ltb_spec 1 (length (cl_lits c))) as [Hlt|Hle].
    - intros E. pose proof (result_aux_ok (cl_lits c) 0 (Some w0) None r s Hg
        (fun l Hl => proj1 (proper_lit c l Hp Hl)) I) as H. rewrite E in H.
      destruct H as (A&B&C). split; auto. split; auto. intros w v R T. apply C; auto. exact I.
    - intros E; injection E as <- <-. split; [constructor|]. split; auto. intros w v _ _. split; auto.
      intros [|(l&Hl&Hc&_)]; auto.
      destruct (cl_lits c) as [|a [|b rest]]; simpl in *; [tauto| |lia].
      destruct Hl as [<-|[]], Hl0 as [<-|[]]. subst w0. rewrite Z.eqb_refl in Hc. discriminate.
  Qed.

  Lemma finish_stated x : forall c, stated (finish x) = Some c -> exists r s, x = AOk r s /\ c = derived r.
  Proof.
    destruct x as [[|a r] s|w s| |]; simpl; intros c E; try discriminate; injection E as <-; eauto.
  Qed.

  (** ** Resolution *)
  Lemma resolve_sound nu xcl i ycl j s c : vgood s -> proper xcl -> proper ycl -> coherent xcl -> coherent ycl ->
    stated (resolve sb comp bk nb nu xcl i ycl j s) = Some c ->
    valid_in eqc M (clause_of xcl) -> valid_in eqc M (clause_of ycl) -> valid_in eqc M c.
  Proof.
    intros Hs Px Py Cx Cy. unfold resolve.
    destruct (nth_error (cl_lits xcl) i) as [xl|] eqn:Ex; [|discriminate].
    destruct (nth_error (cl_lits ycl) j) as [yl|] eqn:Ey; [|discriminate].
    apply nth_error_In in Ex. apply nth_error_In in Ey.
    destruct (negpolarities (lmeta xl) (lmeta yl)) eqn:Ep; [|discriminate]. apply of_spec in Ep.
    destruct (unify_term nu (latom xl) (latom yl) s) as [[|] s'|] eqn:Eu; try discriminate.
    destruct (proper_lit _ _ Px Ex) as (Fx&Tx&Vx). destruct (proper_lit _ _ Py Ey) as (Fy&Ty&Vy).
    pose proof (unify_vgood _ _ _ _ _ _ Hs Tx Ty Vx Vy Eu) as Hs'.
    pose proof (fun sg => unify_same _ _ _ _ _ sg Hs Tx Ty Vx Vy Eu) as Hsame.
    intros Hst Hvx Hvy v.
    (* the final state of the build session and its two literal lists *)
    assert (Hkey : forall s1 (A : bgrows (start_build s') s1) (B : bgood s1),
      (forall w, respects M w (bank (vars s1)) -> tied bk M w v ->
         rest_holds (Some (lword xl)) (cl_lits xcl) w \/ rest_holds (Some (lword yl)) (cl_lits ycl) w -> holdsc v c) ->
      holdsc v c).
    { intros s1 A B Hc.
      destruct (valuation_exists s1 v B) as (sg&w&He&R&T&v0&Ew).
      assert (Eq : app sg (latom xl) = app sg (latom yl)).
      { apply Hsame. eapply solves_mono; [|apply He]. apply bgrows_ext in A. exact A. }
      assert (Ha : holds eqc M w (latom xl) <-> holds eqc M w (latom yl)).
      { rewrite Ew. rewrite <- !holds_app by auto. rewrite Eq. tauto. }
      destruct (Hvx w) as (lx&Hlx&Hhx). destruct (Hvy w) as (ly&Hly&Hhy).
      apply in_map_iff in Hlx as (cx&<-&Hcx). apply in_map_iff in Hly as (cy&<-&Hcy).
      apply (Hc w R T).
      destruct (Z.eqb_spec (lword cx) (lword xl)) as [Ewx|Nx].
      - destruct (Z.eqb_spec (lword cy) (lword yl)) as [Ewy|Ny].
        + exfalso. rewrite (Cx _ _ Hcx Ex Ewx) in Hhx. rewrite (Cy _ _ Hcy Ey Ewy) in Hhy.
          unfold lit_holds, lit_of_clit in *. simpl in *. rewrite Ep in Hhx.
          destruct (meta_is_neg (lmeta yl)); simpl in *; tauto.
        + right. exists cy. split; auto. split; auto. simpl. apply Z.eqb_neq; auto.
      - left. exists cx. split; auto. split; auto. simpl. apply Z.eqb_neq; auto. }
    unfold resolve_result in Hst.
    destruct (Nat.eqb_spec (length (cl_lits xcl) + length (cl_lits ycl) - 2) 0) as [E0|Hlen].
    - injection Hst as <-. apply (Hkey (start_build s')); [constructor|apply vgood_start; auto|].
      intros w _ _ [(l&Hl&Hc&_)|(l&Hl&Hc&_)]; exfalso.
      + destruct (cl_lits xcl) as [|a [|b xr]]; simpl in *; try tauto.
        * destruct Hl as [<-|[]], Ex as [->|[]]. rewrite Z.eqb_refl in Hc. discriminate.
        * destruct (cl_lits ycl); simpl in *; [tauto|lia].
      + destruct (cl_lits ycl) as [|a [|b yr]]; simpl in *; try tauto.
        * destruct Hl as [<-|[]], Ey as [->|[]]. rewrite Z.eqb_refl in Hc. discriminate.
        * destruct (cl_lits xcl); simpl in *; [tauto|lia].
    - destruct (if many xcl then _ else _) as [r1 s1|w1 s1| |] eqn:E1; try discriminate.
      apply finish_stated in Hst as (r2&s2&E2&->).
      destruct (parent_part xcl _ _ _ _ _ (vgood_start _ Hs') Px (ex_intro _ xl (conj Ex eq_refl)) E1) as (A1&B1&C1).
      destruct (parent_part ycl _ _ _ _ _ B1 Py (ex_intro _ yl (conj Ey eq_refl)) E2) as (A2&B2&C2).
      apply (Hkey s2); [eapply bgrows_trans; eauto|auto|].
      intros w R T Hor. apply (C2 w v R T).
      destruct Hor as [H|H]; [left|right; auto]. apply (C1 w v); auto.
      eapply respects_mono; [apply bgrows_ext; exact A2|auto].
  Qed.

  Lemma cut_sound lits xl (P : (Z -> dom M) -> Prop) s r s' v :
    vgood s -> (forall l, In l lits -> foa (latom l) = true) ->
    result_aux sb comp bk nb 0 lits (Some (lword xl)) None [] (start_build s) = AOk r s' ->
    (forall sg v0, solves sg (bank s) -> rest_holds (Some (lword xl)) lits (fun i => eval M v0 (sg i))) ->
    holdsc v (derived r).
  Proof.
    intros Hs Hf E Hr.
    pose proof (result_aux_ok lits 0 (Some (lword xl)) None [] (start_build s) (vgood_start _ Hs) Hf I) as H.
    rewrite E in H. destruct H as (A&B&C).
    destruct (valuation_exists s' v B) as (sg&w&He&R&T&v0&Ew).
    apply (C w v R T I). right. subst w. apply Hr.
    eapply solves_mono; [|apply He]. apply bgrows_ext in A. exact A.
  Qed.

  (** ** Factoring *)
  Lemma factor_sound nu cl i j s c : vgood s -> proper cl -> coherent cl ->
    (forall xl yl, nth_error (cl_lits cl) i = Some xl -> nth_error (cl_lits cl) j = Some yl -> lword xl <> lword yl) ->
    stated (factor sb comp bk nb nu cl i j s) = Some c ->
    valid_in eqc M (clause_of cl) -> valid_in eqc M c.
  Proof.
    intros Hs Pc Cc Hw. unfold factor. destruct cl as [|lits]; [discriminate|].
    destruct (Nat.ltb_spec i j) as [Hij|]; [|discriminate].
    cbn [cl_lits] in Hw.
    destruct (nth_error lits i) as [xl|] eqn:Ex; [|discriminate].
    destruct (nth_error lits j) as [yl|] eqn:Ey; [|discriminate].
    specialize (Hw xl yl eq_refl eq_refl).
    assert (Hlen : (length lits - 1 <> 0)%nat).
    { assert (nth_error lits j <> None) by congruence. apply nth_error_Some in H. lia. }
    apply nth_error_In in Ex. apply nth_error_In in Ey.
    destruct (negpolarities (lmeta xl) (lmeta yl)) eqn:Ep; [discriminate|]. apply same_spec in Ep.
    destruct (is_rec (latom xl) && is_rec (latom yl)); [|discriminate].
    destruct (unify_term nu (latom xl) (latom yl) s) as [[|] s'|] eqn:Eu; try discriminate.
    destruct (proper_lit _ xl Pc Ex) as (Fx&Tx&Vx). destruct (proper_lit _ yl Pc Ey) as (Fy&Ty&Vy).
    pose proof (unify_vgood _ _ _ _ _ _ Hs Tx Ty Vx Vy Eu) as Hs'.
    pose proof (fun sg => unify_same _ _ _ _ _ sg Hs Tx Ty Vx Vy Eu) as Hsame.
    unfold factor_result. destruct (Nat.eqb_spec (length lits - 1) 0) as [E0|_]; [lia|].
    intros Hst Hv v. apply finish_stated in Hst as (r&s1&E&->).
    apply (cut_sound lits xl (fun _ => True) s' r s1 v Hs' (fun l Hl => proj1 (proper_lit _ l Pc Hl)) E).
    intros sg v0 Hsol. set (w := fun i => eval M v0 (sg i)).
    assert (Ha : holds eqc M w (latom xl) <-> holds eqc M w (latom yl)).
    { unfold w. rewrite <- !holds_app by auto. rewrite (Hsame sg Hsol). tauto. }
    destruct (Hv w) as (l&Hl&Hh). apply in_map_iff in Hl as (cx&<-&Hcx). cbn [cl_lits] in Hcx.
    destruct (Z.eqb_spec (lword cx) (lword xl)) as [Ewx|Nx].
    - exists yl. split; auto. split; [simpl; apply Z.eqb_neq; auto|].
      rewrite (Cc _ _ Hcx Ex Ewx) in Hh. unfold lit_holds, lit_of_clit in *. simpl in *.
      rewrite Ep in Hh. destruct (meta_is_neg (lmeta yl)); tauto.
    - exists cx. split; auto. split; [simpl; apply Z.eqb_neq; auto|auto].
  Qed.

  (** ** Reflexivity resolution *)
  Lemma fot_args c args a : fot (TRec (TCst c :: args)) = true -> In a args -> fot a = true.
  Proof. intros H Ha. apply fot_rec in H as (c'&args'&E&H). injection E as <- <-. auto. Qed.

  Lemma eq_parts c l a0 b0 : proper c -> In l (cl_lits c) -> binary_eq eqc c ->
    equality_atom eqc (latom l) = Some true -> eq_sides (latom l) = Some (a0, b0) ->
    latom l = TRec [TCst eqc; a0; b0] /\ fot a0 = true /\ fot b0 = true /\
    (forall j, In j (tvars a0) -> j < first_unreal) /\ (forall j, In j (tvars b0) -> j < first_unreal).
  Proof.
    intros Pc Hl Hb. destruct (proper_lit _ _ Pc Hl) as (_&Tx&Vx). specialize (Hb l).
    destruct (latom l) as [|?|[|[|c0|] args]]; try discriminate. cbn [equality_atom].
    destruct (cst_eq_dec c0 eqc) as [->|]; [|discriminate]. intros _.
    specialize (Hb args Hl eq_refl). destruct args as [|x [|y [|]]]; try discriminate.
    simpl. intros E; injection E as -> ->. split; auto.
    split; [apply (fot_args _ _ _ Tx); simpl; auto|]. split; [apply (fot_args _ _ _ Tx); simpl; auto|].
    split; intros j Hj; apply Vx; simpl; rewrite ?in_app_iff; auto.
  Qed.

  Lemma holds_eq w a b : holds eqc M w (TRec [TCst eqc; a; b]) <-> eval M w a = eval M w b.
  Proof. simpl. destruct (cst_eq_dec eqc eqc); tauto. Qed.

  Lemma reflexive_sound nu cl i s c : vgood s -> proper cl -> coherent cl -> binary_eq eqc cl ->
    stated (reflexive sb comp bk nb eqc nu cl i s) = Some c ->
    valid_in eqc M (clause_of cl) -> valid_in eqc M c.
  Proof.
    intros Hs Pc Cc Hb. unfold reflexive. destruct cl as [|lits]; [discriminate|].
    destruct (nth_error lits i) as [xl|] eqn:Ex; [|discriminate]. apply nth_error_In in Ex.
    destruct (meta_is_neg (lmeta xl)) eqn:En; [|discriminate].
    destruct (equality_atom eqc (latom xl)) as [[|]|] eqn:Eq; try discriminate.
    destruct (eq_sides (latom xl)) as [[a0 b0]|] eqn:Es; [|discriminate].
    destruct (eq_parts _ xl a0 b0 Pc Ex Hb Eq Es) as (Ea&Fa&Fb&Va&Vb).
    destruct (unify_term nu a0 b0 s) as [[|] s'|] eqn:Eu; try discriminate.
    pose proof (unify_vgood _ _ _ _ _ _ Hs Fa Fb Va Vb Eu) as Hs'.
    pose proof (fun sg => unify_same _ _ _ _ _ sg Hs Fa Fb Va Vb Eu) as Hsame.
    intros Hst Hv v.
    assert (Hrest : forall sg v0, solves sg (bank s') -> rest_holds (Some (lword xl)) lits (fun i => eval M v0 (sg i))).
    { intros sg v0 Hsol. set (w := fun i => eval M v0 (sg i)).
      destruct (Hv w) as (l&Hl&Hh). apply in_map_iff in Hl as (cx&<-&Hcx). cbn [cl_lits] in Hcx.
      destruct (Z.eqb_spec (lword cx) (lword xl)) as [Ewx|Nx].
      - exfalso. rewrite (Cc _ _ Hcx Ex Ewx) in Hh. unfold lit_holds, lit_of_clit in Hh. cbn [fst snd] in Hh.
        rewrite En, Ea in Hh. apply Hh. apply holds_eq.
        unfold w. rewrite <- !eval_app by auto. rewrite (Hsame sg Hsol). reflexivity.
      - exists cx. split; auto. split; [simpl; apply Z.eqb_neq; auto|auto]. }
    unfold factor_result in Hst. destruct (Nat.eqb_spec (length lits - 1) 0) as [E0|Hlen].
    - injection Hst as <-. exfalso.
      destruct Hs' as (A'&_). destruct (exhaustive_exists _ A') as [sg He].
      destruct (Hrest sg v (proj1 He)) as (l&Hl&Hc&_).
      destruct lits as [|a [|? ?]]; simpl in *; try tauto; [|lia].
      destruct Hl as [<-|[]], Ex as [->|[]]. rewrite Z.eqb_refl in Hc. discriminate.
    - apply finish_stated in Hst as (r&s1&E&->).
      apply (cut_sound lits xl (fun _ => True) s' r s1 v Hs' (fun l Hl => proj1 (proper_lit _ l Pc Hl)) E). auto.
  Qed.

  (** ** Paramodulation *)
  Lemma positions_ok deep : forall t depth path l p, fot t = true -> 0 <= depth ->
    positions deep t depth path = (l, p) ->
    (forall q u, In (q, u) l -> path <= q <= maxpos /\ (depth = 0 -> path < q) /\ nth_error (preorder t) (Z.to_nat (q - path)) = Some u) /\ path <= p /\ (p = path + Z.of_nat (length (preorder t)) - 1 \/ maxpos < p).
  Proof.
    assert (Hentry : forall depth path t q u, 0 <= depth -> path <= maxpos -> In (q, u) (pos_entry deep depth path t) ->
      path <= q <= maxpos /\ (depth = 0 -> path < q) /\ q = path /\ u = t).
    { intros depth path t q u Hd Hp. unfold pos_entry. destruct (Z.ltb_spec depth 1); simpl; [tauto|].
      destruct (deep && (2 <? depth)); simpl; [tauto|]. intros [E|[]]. injection E as <- <-. repeat split; auto; lia. }
    induction t as [i|c|fs IH] using term_ind'; intros depth path l p Hf Hd; cbn [positions].
    - destruct (Z.ltb_spec maxpos path); intros E; injection E as <- <-; simpl; (split; [tauto|lia]).
    - destruct (Z.ltb_spec maxpos path); intros E; injection E as <- <-; (split; [|simpl; lia]); [simpl; tauto|].
      intros q u Hin. apply Hentry in Hin as (A&B&->&->); auto. split; auto. split; auto.
      replace (Z.to_nat (path - path)) with 0%nat by lia. reflexivity.
    - destruct (Z.ltb_spec maxpos path) as [|Hmax].
      { intros E; injection E as <- <-. split; [simpl; tauto|lia]. }
      apply fot_rec in Hf as (c&args&->&Hargs). cbn [is_rec].
      set (f := fun x p => positions deep x (depth + 1) p).
      assert (HL : forall xs path l p, (forall x, In x xs -> In x args) -> pos_loop f xs path = (l, p) ->
        (forall q u, In (q, u) l -> path < q <= maxpos /\
           nth_error (flat_map preorder xs) (Z.to_nat (q - path - 1)) = Some u) /\
        path <= p /\ (p = path + Z.of_nat (length (flat_map preorder xs)) \/ maxpos < p)).
      { induction xs as [|x xs IHx]; intros pa l0 p0 Hxs; cbn [pos_loop].
        - intros E; injection E as <- <-. simpl. split; [tauto|lia].
        - destruct (f x (pa + 1)) as [l1 p1] eqn:E1. destruct (pos_loop f xs p1) as [l2 p2] eqn:E2.
          intros E; injection E as <- <-.
          assert (Hx : In x args) by (apply Hxs; simpl; auto).
          rewrite Forall_forall in IH.
          destruct (IH x (or_intror Hx) (depth + 1) (pa + 1) l1 p1 (Hargs x Hx) ltac:(lia) E1) as (A1&A2&A3).
          destruct (IHx p1 l2 p2 ltac:(intros; apply Hxs; simpl; auto) E2) as (B1&B2&B3).
          cbn [flat_map]. rewrite app_length.
          split; [|split; [lia|destruct A3; [destruct B3; [left|right]; lia|right; lia]]].
          intros q u Hin. apply in_app_or in Hin as [Hin|Hin].
          + destruct (A1 q u Hin) as (C1&_&C3). split; [lia|].
            replace (q - pa - 1) with (q - (pa + 1)) by lia.
            rewrite nth_error_app1; auto. apply nth_error_Some. congruence.
          + destruct (B1 q u Hin) as (C1&C3). split; [lia|].
            destruct A3 as [A3|]; [|lia]. rewrite nth_error_app2 by lia. rewrite <- C3. f_equal. lia. }
      destruct (pos_loop f args path) as [l1 p1] eqn:E1. intros E; injection E as <- <-.
      destruct (HL args path l1 p1 ltac:(auto) E1) as (B1&B2&B3). cbn [preorder].
      split; [|split; [lia|destruct B3; [left|right]; simpl length; lia]].
      intros q u Hin. simpl in Hin. apply in_app_or in Hin as [Hin|Hin].
      + destruct (B1 q u Hin) as (C1&C2). split; [lia|]. split; [lia|].
        replace (Z.to_nat (q - path)) with (S (Z.to_nat (q - path - 1))) by lia. exact C2.
      + apply Hentry in Hin as (A&B&->&->); auto. split; auto. split; auto.
        replace (Z.to_nat (path - path)) with 0%nat by lia. reflexivity.
  Qed.


  Lemma termpath_roundtrip l p : 0 <= l <= 255 -> 0 <= p < 65536 ->
    decode_litnr (encode_termpath l p) = l /\ decode_pos (encode_termpath l p) = p.
  Proof.
    intros Hl Hp. unfold encode_termpath, decode_litnr, decode_pos.
    rewrite Z.shiftl_mul_pow2 by lia. rewrite lor_add by lia. split.
    - change 16711680 with (Z.shiftl (Z.ones 8) 16). rewrite land_range by lia.
      rewrite Z.shiftr_div_pow2 by lia. rewrite Z.div_mul by lia.
      rewrite Z.div_add_l by lia. rewrite (Z.div_small p) by lia. rewrite Z.mod_small; lia.
    - change 65535 with (Z.ones 16). rewrite Z.land_ones by lia.
      rewrite Z.add_comm, Z.mod_add by lia. apply Z.mod_small; lia.
  Qed.

  (** What the path code of an offered subterm points to. *)
  Lemma para_subterms_ok deep : forall lits i path u, 0 <= i ->
    (forall l, In l lits -> fot (latom l) = true) ->
    In (path, u) (para_subterms deep i lits) ->
    0 < decode_pos path /\
    exists k l, nth_error lits k = Some l /\ i + Z.of_nat k = decode_litnr path /\
      nth_error (preorder (latom l)) (Z.to_nat (decode_pos path)) = Some u.
  Proof.
    induction lits as [|l lits IH]; intros i path u Hi Hf; cbn [para_subterms]; [simpl; tauto|].
    intros Hin. apply in_app_or in Hin as [Hin|Hin].
    - destruct (Z.ltb_spec maxlitnr i) as [|Hmax]; [destruct Hin|].
      apply in_map_iff in Hin as ([q u']&E&Hin). cbn [fst snd] in E. injection E as <- <-.
      destruct (positions deep (latom l) 0 0) as [ps p] eqn:Ep. cbn [fst] in Hin.
      destruct (positions_ok deep (latom l) 0 0 ps p (Hf l (or_introl eq_refl)) ltac:(lia) Ep) as (A&_&_).
      destruct (A q u' Hin) as (B1&B2&B3). specialize (B2 eq_refl).
      unfold maxlitnr, maxpos in *.
      destruct (termpath_roundtrip i q ltac:(lia) ltac:(lia)) as [-> ->]. split; [lia|].
      exists 0%nat, l. split; auto. split; [lia|]. rewrite <- B3. f_equal. lia.
    - destruct (IH (i + 1) path u ltac:(lia) ltac:(intros; apply Hf; simpl; auto) Hin) as (A&k&l'&B1&B2&B3).
      split; auto. exists (S k), l'. split; auto. split; [lia|auto].
  Qed.

  Lemma preorder_sub : forall t, fot t = true -> forall u, In u (preorder t) ->
    fot u = true /\ forall j, In j (tvars u) -> In j (tvars t).
  Proof.
    induction t as [i|c|fs IH] using term_ind'; intros Hf u.
    - intros [<-|[]]; auto.
    - intros [<-|[]]; auto.
    - cbn [preorder]. intros [<-|Hin]; [auto|].
      apply fot_rec in Hf as (c&args&->&Hargs).
      apply in_flat_map in Hin as (a&Ha&Hin). rewrite Forall_forall in IH.
      destruct (IH a (or_intror Ha) (Hargs a Ha) u Hin) as [A B]. split; auto.
      intros j Hj. simpl. apply in_flat_map. exists a. auto.
  Qed.

  Lemma paramodulate_sound deep nu xcl i left from ycl k s c :
    vgood s -> proper xcl -> proper ycl -> coherent xcl -> binary_eq eqc xcl ->
    stated (paramodulate sb comp bk nb eqc deep nu xcl i left from ycl k s) = Some c ->
    valid_in eqc M (clause_of xcl) -> valid_in eqc M (clause_of ycl) -> valid_in eqc M c.
  Proof.
    intros Hs Px Py Cx Hb. unfold paramodulate.
    destruct (nth_error (cl_lits xcl) i) as [xl|] eqn:Ex; [|discriminate]. apply nth_error_In in Ex.
    destruct (nth_error (para_subterms deep 0 (cl_lits ycl)) k) as [[path u]|] eqn:Ek; [|discriminate].
    apply nth_error_In in Ek.
    destruct (para_subterms_ok deep _ 0 path u ltac:(lia) (fun l Hl => proj1 (proj2 (proper_lit _ l Py Hl))) Ek)
      as (Hpos&k0&yl&Hk0&Hk1&Hk2).
    assert (Hyl := nth_error_In _ _ Hk0). destruct (proper_lit _ _ Py Hyl) as (Fy&Ty&Vy).
    destruct (preorder_sub _ Ty u (nth_error_In _ _ Hk2)) as [Fu Vu].
    destruct (meta_is_neg (lmeta xl)) eqn:En; [discriminate|].
    destruct (negb (is_rec (latom xl))); [discriminate|].
    destruct (equality_atom eqc (latom xl)) as [[|]|] eqn:Eq; try discriminate.
    destruct (eq_sides (latom xl)) as [[a0 b0]|] eqn:Es; [|discriminate].
    destruct (eq_parts _ xl a0 b0 Px Ex Hb Eq Es) as (Ea&Fa0&Fb0&Va0&Vb0).
    set (a := if left then a0 else b0). set (b := if left then b0 else a0).
    assert (Fa : fot a = true) by (unfold a; destruct left; auto).
    assert (Fb : fot b = true) by (unfold b; destruct left; auto).
    assert (Va : forall j, In j (tvars a) -> j < first_unreal) by (unfold a; destruct left; auto).
    assert (Vu' : forall j, In j (tvars u) -> j < first_unreal) by auto.
    cbn zeta. destruct (is_var a); [discriminate|].
    destruct (if from then unify_term nu a u s else unify_term nu u a s) as [[|] s'|] eqn:Eu; try discriminate.
    assert (Hboth : vgood s' /\ forall sg, solves sg (bank s') -> app sg a = app sg u).
    { destruct from; split.
      - apply (unify_vgood nu a u s true s'); auto.
      - intros sg. apply (unify_same nu a u s s' sg); auto.
      - apply (unify_vgood nu u a s true s'); auto.
      - intros sg Hsol. symmetry. apply (unify_same nu u a s s' sg); auto. }
    destruct Hboth as [Hs' Hsame]. unfold para_result.
    destruct (if many xcl then _ else _) as [r1 s1|w1 s1| |] eqn:E1; try discriminate.
    intros Hst Hvx Hvy v. apply finish_stated in Hst as (r2&s2&E2&->).
    destruct (parent_part xcl _ _ _ _ _ (vgood_start _ Hs') Px (ex_intro _ xl (conj Ex eq_refl)) E1) as (A1&B1&C1).
    pose proof (result_aux_ok (cl_lits ycl) 0 None (Some (path, b)) r1 s1 B1
        (fun l Hl => proj1 (proper_lit ycl l Py Hl)) (conj Fb Hpos)) as H2. rewrite E2 in H2.
    destruct H2 as (A2&B2&C2).
    destruct (valuation_exists s2 v B2) as (sg&w&He&R&T&v0&Ew).
    assert (Hsol : solves sg (bank s')).
    { eapply solves_mono; [|apply He]. apply (bgrows_trans _ _ _ A1) in A2. apply bgrows_ext in A2. exact A2. }
    assert (Hau : eval M w a = eval M w u).
    { rewrite Ew. rewrite <- !eval_app by auto. rewrite (Hsame sg Hsol). reflexivity. }
    assert (Hx : rest_holds (Some (lword xl)) (cl_lits xcl) w \/ eval M w a = eval M w b).
    { destruct (Hvx w) as (l&Hl&Hh). apply in_map_iff in Hl as (cx&<-&Hcx).
      destruct (Z.eqb_spec (lword cx) (lword xl)) as [Ewx|Nx].
      - right. rewrite (Cx _ _ Hcx Ex Ewx) in Hh. unfold lit_holds, lit_of_clit in Hh. cbn [fst snd] in Hh.
        rewrite En, Ea in Hh. apply holds_eq in Hh. unfold a, b. destruct left; auto.
      - left. exists cx. split; auto. split; [simpl; apply Z.eqb_neq; auto|auto]. }
    assert (R1 : respects M w (bank (vars s1))) by (eapply respects_mono; [apply bgrows_ext; exact A2|auto]).
    destruct Hx as [Hx|Hab].
    - (* the rest of the equality's clause *)
      assert (Hr1 : holdsc v (derived r1)) by (apply (C1 w v R1 T); auto).
      pose proof (result_aux_grows (cl_lits ycl) 0 None (Some (path, b)) r1 s1) as Hg. rewrite E2 in Hg.
      destruct Hg as [more ->]. rewrite derived_app. apply clause_holds_app. auto.
    - assert (Hfit : repl_fits 0 (cl_lits ycl) (Some (path, b)) w).
      { intros k' l' Hk' El'. assert (k' = k0) by lia. subst k'. rewrite Hk0 in Hk'. injection Hk' as <-.
        intros _ sub Esub. rewrite Hk2 in Esub. injection Esub as <-. congruence. }
      apply (C2 w v R T Hfit). right.
      destruct (Hvy w) as (l&Hl&Hh). apply in_map_iff in Hl as (cy&<-&Hcy).
      exists cy. auto.
  Qed.

  (** ** Tautologies *)
  Lemma taut_inner_ok x ys : taut_inner sb x ys = Some true ->
    exists y, In y ys /\ latom x = latom y /\ meta_is_neg (lmeta x) <> meta_is_neg (lmeta y).
  Proof.
    induction ys as [|y ys IH]; cbn [taut_inner]; [discriminate|].
    destruct (negb _); [intros H; destruct (IH H) as (z&A&B); exists z; simpl; auto|].
    destruct (Bool.eqb (meta_is_neg (lmeta x)) (meta_is_neg (lmeta y))) eqn:E;
      [intros H; destruct (IH H) as (z&A&B); exists z; simpl; auto|].
    pose proof (equal_term_spec sb (latom x) (latom y)) as He.
    destruct (equal_term sb (latom x) (latom y)).
    - intros _. exists y. simpl. split; auto. split; auto. apply Bool.eqb_false_iff; auto.
    - intros H; destruct (IH H) as (z&A&B); exists z; simpl; auto.
    - discriminate.
  Qed.

  Lemma taut_outer_ok l : taut_outer sb l = Some true ->
    exists x y, In x l /\ In y l /\ latom x = latom y /\ meta_is_neg (lmeta x) <> meta_is_neg (lmeta y).
  Proof.
    induction l as [|x l IH]; cbn [taut_outer]; [discriminate|].
    destruct (taut_inner sb x l) as [[|]|] eqn:E; [| |discriminate].
    - intros _. destruct (taut_inner_ok _ _ E) as (y&A&B). exists x, y. simpl. auto.
    - intros H. destruct (IH H) as (x'&y&A&B&C). exists x', y. simpl. auto.
  Qed.

End Sound.
