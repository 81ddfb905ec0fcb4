(** The lists that the reader leaves, as formulas; reading such a list once more *)
From Coq Require Import ZArith Lia Arith String Ascii Bool List.
From Verif Require Import ClausModel ClausSpec JsModel JsSpec JsBase JsTerm.
Import ListNotations.
Open Scope string_scope.
Open Scope list_scope.

Inductive core :=
| KTruth (b : bool)
| KAtom (p : string) (ts : list fterm)
| KEq (a b : fterm)
| KNot (k : core)
| KBin (c : conn) (k l : core)
| KQ (c : conn) (vs : list string) (k : core).
Fixpoint kvars (k : core) : list string :=
  match k with
  | KTruth _ => []
  | KAtom _ ts => flat_map tvars ts
  | KEq a b => tvars a ++ tvars b
  | KNot k => kvars k
  | KBin _ k l => kvars k ++ kvars l
  | KQ _ vs k => without vs (kvars k)
  end.
Definition uri s := Sa (Sym TUri s).
Definition tf (b : bool) := Sa (Sym TAnon (if b then "$true" else "$false")).
Inductive rep : list string -> core -> sx -> Prop :=
| R_truth bd b : rep bd (KTruth b) (tf b)
| R_atom bd p a ts us : name_ok p -> neg_char p = false -> ~ In p bd -> head_out p a ->
    fold_right and True (map (legalT bd) ts) -> Forall2 outT ts us -> rep bd (KAtom p ts) (Sl (Sa a :: us))
| R_eq bd h a b u v : h = Sym TUri "=" \/ h = Sym TAnon "=" -> legalT bd a -> legalT bd b -> outT a u -> outT b v ->
    rep bd (KEq a b) (Sl [Sa h; u; v])
| R_not bd k x : rep bd k x -> rep bd (KNot k) (mk_not x)
| R_bin bd c k l x y : In c [CAnd; COr; CImp; CEqv] -> rep bd k x -> rep bd l y ->
    rep bd (KBin c k l) (Sl [Sa (Con c); x; y])
| R_q bd c vs k x : In c [CAll; CEx] -> vs <> [] -> Forall var_name vs -> rep (vs ++ bd) k x ->
    rep bd (KQ c vs k) (Sl [Sa (Con c); Sl (map uri vs); x]).

Lemma rep_shape bd k x : rep bd k x -> (exists b, x = tf b) \/ exists y l, x = Sl (y :: l).
Proof. intros H. inversion H; subst; unfold mk_not; eauto. Qed.
Lemma quiet_tf b : quiet (tf b).
Proof. apply quiet_name. split; [destruct b; discriminate|]. destruct b; cbn; intuition discriminate. Qed.
Lemma rep_quiet bd k x : rep bd k x -> quiet x.
Proof. intros H. apply rep_shape in H as [[b ->]|(y & l & ->)]; [apply quiet_tf|apply quiet_list]. Qed.
Lemma terms_first_quiet bd ts xs : fold_right and True (map (legalT bd) ts) -> Forall2 inT ts xs -> quiet_first xs.
Proof. intros L F. destruct F; cbn; [exact Logic.I|]. eapply quiet_term; [apply L|eassumption]. Qed.
Lemma outs_in ts us : Forall2 outT ts us -> Forall2 inT ts us.
Proof. induction 1; constructor; [now apply outT_in|assumption]. Qed.

Lemma in_without y vs l : In y (without vs l) <-> In y l /\ ~ In y vs.
Proof.
  unfold without. rewrite filter_In. change (existsb (String.eqb y) vs) with (mems y vs).
  destruct (mems y vs) eqn:E; cbn.
  - apply mems_in in E. split; [intros [_ H]; discriminate|tauto].
  - split; [|tauto]. intros [H _]. split; [exact H|]. intros I. apply mems_in in I. congruence.
Qed.
Lemma fvspec_q bd vs A f g : fvspec (vs ++ bd) A f g -> fvspec bd (without vs A) f g.
Proof. intros H y. rewrite (H y), in_without, in_app_iff. tauto. Qed.
Lemma varlist_uri vs : Forall var_name vs -> varlist_els (map uri vs) = Done true.
Proof.
  induction 1 as [|s r H _ IH]; [reflexivity|]. cbn [map varlist_els uri].
  pose proof (var_calm s H) as [N _]. rewrite (eqb_out s "" N).
  assert (E : qvar s || cap s = true) by (destruct H as [H|H]; rewrite H; [reflexivity|apply orb_true_r]).
  rewrite E. exact IH.
Qed.
Lemma names_uri vs : names_of_list (Sl (map uri vs)) = vs.
Proof. cbn. rewrite map_map. cbn. apply map_id. Qed.
Lemma bd_app vs bd : Forall var_name vs -> bd_ok bd -> bd_ok (vs ++ bd).
Proof. intros A B. unfold bd_ok. rewrite Forall_app. now split. Qed.

(** ** wr_process_json_term on a list that was already read *)
Definition tgood bd k x : Prop := forall lvl pos fv,
  exists x' fv', runs (fun n => term n lvl pos bd x fv) (x', fv') /\ rep bd k x' /\ fvspec bd (kvars k) fv fv'.
Lemma conn_generic n lvl pos bd c r1 fv : In c [CNot; CAnd; COr; CImp; CEqv] -> quiet_first r1 ->
  term (S n) lvl pos bd (Sl (Sa (Con c) :: r1)) fv =
  bind (each_term n bd 0 (Sa (Con c) :: r1) fv) (fun '(ys, fv') => Done (Sl ys, fv')).
Proof.
  intros C Q. apply term_generic; try exact Q; [reflexivity| | |];
    cbn in C; repeat (destruct C as [<-|C]; [cbn; intuition discriminate|]); contradiction.
Qed.
Lemma rep_term bd k x : rep bd k x -> bd_ok bd -> tgood bd k x.
Proof.
  induction 1 as [bd b|bd p a ts us N G B A L F|bd h a b u v Hh La Lb Oa Ob|bd k x H IH|bd c k l x y C H IHx H' IHy|bd c vs k x C N V H IH];
    intros Bo lvl pos fv.
  - exists (tf b), fv. split; [|split; [constructor|apply fvspec_nil]].
    apply runs_S with (h := fun _ => tatom pos bd (Sym TAnon (if b then "$true" else "$false")) fv); [reflexivity|].
    rewrite tatom_truth by exact Bo. apply runs_done.
  - pose proof (head_out_in p a A) as Ai. destruct (head_in_str p a Ai) as [SA UA].
    destruct (each_good bd ts us (terms_read bd ts us L (outs_in ts us F)) 1 fv ltac:(lia)) as (ws & fv' & R & O & Vs).
    exists (Sl (Sa (Sym TAnon p) :: ws)), fv'. split; [|split; [|exact Vs]].
    + eapply runs_S.
      * intros n. apply term_generic.
        -- eapply terms_first_quiet; [exact L|apply outs_in; exact F].
        -- exact UA.
        -- rewrite SA. apply N.
        -- intros _. rewrite SA. split; [exact G|]. intros I. apply name_calm in N as [_ N]. apply N.
           cbn in *. intuition (subst; auto 40).
        -- rewrite SA. intros I. apply name_calm in N as [_ N]. apply N. cbn in *. intuition (subst; auto 40).
      * eapply runs_bind with (a := (Sa (Sym TAnon p) :: ws, fv')); [|apply runs_done]. apply each_head; [apply tatom_calm; assumption|exact R].
    + apply R_atom; try assumption. left. reflexivity.
  - pose proof (outT_in _ _ Oa) as Ia. pose proof (outT_in _ _ Ob) as Ib.
    destruct (term_read bd a u La Ia fv 1 ltac:(lia)) as (u' & f1 & R1 & O1 & F1).
    destruct (term_read bd b v Lb Ib f1 2 ltac:(lia)) as (v' & f2 & R2 & O2 & F2).
    assert (Hi : head_in "=" h) by (destruct Hh as [->| ->]; [left|right]; reflexivity).
    destruct (head_in_str _ _ Hi) as [SA UA].
    pose proof (quiet_term bd a u La Ia) as Qu.
    exists (Sl [atomeq; u'; v']), f2. split; [|split].
    + destruct lvl.
      * eapply runs_S.
        -- intros n. cbn [term].
           destruct Qu as (Q1 & _ & _ & _ & Q5 & _). rewrite Q1, Q5. cbn [andb negb].
           assert (Z : nul_atom (Sa h) = false) by (destruct Hi as [->| ->]; reflexivity). rewrite Z.
           assert (Y : is_one (Sa h) ["="; "!="; "-="; "~="] = true) by (rewrite is_one_sa, SA; reflexivity). rewrite Y.
           assert (X : is_str (Sa h) "=" = true) by (cbn; rewrite SA; reflexivity). rewrite X. reflexivity.
        -- cbn beta. eapply runs_bind with (a := (u', v', f2)); [|apply runs_done].
           eapply runs_bind; [exact R1|]. cbn. eapply runs_bind; [exact R2|]. apply runs_done.
      * eapply runs_S.
        -- intros n. apply term_generic; [exact Qu|exact UA|rewrite SA; discriminate|discriminate|rewrite SA; cbn; intuition discriminate].
        -- eapply runs_bind with (a := ([atomeq; u'; v'], f2)); [|apply runs_done].
           apply each_head.
           ++ apply tatom_op; [cbn; tauto| |exact Hi]. intros I. unfold bd_ok in Bo. rewrite Forall_forall in Bo.
              specialize (Bo _ I). destruct Bo as [Bo|Bo]; cbn in Bo; discriminate.
           ++ unfold each_term. cbn [each]. eapply runs_bind; [exact R1|]. cbn. eapply runs_bind; [eapply runs_bind; [exact R2|apply runs_done]|].
              apply runs_done.
    + apply R_eq; try assumption. right. reflexivity.
    + cbn. eapply fvspec_app; eassumption.
  - destruct (IH Bo false 1 fv) as (x' & fv' & R & O & F).
    exists (mk_not x'), fv'. split; [|split; [constructor; exact O|exact F]].
    eapply runs_S.
    + intros n. unfold mk_not. apply conn_generic; [cbn; tauto|]. eapply rep_quiet; exact H.
    + eapply runs_bind with (a := ([Sa (Con CNot); x'], fv')); [|apply runs_done].
      apply each_head; [now apply tatom_conn|]. unfold each_term. cbn [each].
      eapply runs_bind; [exact R|]. apply runs_done.
  - destruct (IHx Bo false 1 fv) as (x' & f1 & R1 & O1 & F1).
    destruct (IHy Bo false 2 f1) as (y' & f2 & R2 & O2 & F2).
    exists (Sl [Sa (Con c); x'; y']), f2. split; [|split; [constructor; assumption|cbn; eapply fvspec_app; eassumption]].
    eapply runs_S.
    + intros n. apply conn_generic; [right; exact C|]. eapply rep_quiet; exact H.
    + eapply runs_bind with (a := ([Sa (Con c); x'; y'], f2)); [|apply runs_done].
      apply each_head; [now apply tatom_conn|]. unfold each_term. cbn [each].
      eapply runs_bind; [exact R1|]. cbn. eapply runs_bind; [eapply runs_bind; [exact R2|apply runs_done]|]. apply runs_done.
  - destruct (IH (bd_app vs bd V Bo) true 1 fv) as (x' & fv' & R & O & F).
    exists (Sl [Sa (Con c); Sl (map uri vs); x']), fv'. split; [|split; [constructor; assumption|apply fvspec_q; exact F]].
    eapply runs_S.
    + intros n. cbn [term].
      assert (E : (lvl && nul_atom (Sl (map uri vs)) = false)) by (destruct lvl; reflexivity). rewrite E.
      assert (E2 : lvl && is_one (Sl (map uri vs)) ["="; "!="] = false) by (destruct lvl; reflexivity). rewrite E2.
      assert (E3 : negb lvl && is_one (Sl (map uri vs)) ["+"; "*"; "-"; "/"] = false) by (destruct lvl; reflexivity). rewrite E3.
      assert (E4 : lvl && nul_atom (Sa (Con c)) = false) by (destruct lvl, c; reflexivity). rewrite E4.
      assert (E5 : lvl && is_one (Sa (Con c)) ["="; "!="; "-="; "~="] = false) by (destruct lvl, c; reflexivity). rewrite E5.
      assert (E6 : negb (is_uri (Con c)) && negb (is_anon (Con c)) = false) by reflexivity. rewrite E6.
      assert (E7 : nul (Con c) = false) by (destruct c; reflexivity). rewrite E7.
      assert (E8 : lvl && neg_char (astr (Con c)) = false) by (destruct lvl, c; reflexivity). rewrite E8.
      assert (E9 : is_one (Sa (Con c)) ["exists"; "all"] = true) by (cbn in C; intuition (subst; reflexivity)). rewrite E9.
      replace (is_varlist (Sl (map uri vs))) with (varlist_els (map uri vs)) by reflexivity.
      rewrite (varlist_uri vs V), names_uri. cbn [bind negb]. reflexivity.
    + cbn beta. eapply runs_bind; [exact R|]. apply runs_done.
Qed.

(** ** wr_json_unflatten_logic on lists of formulas *)
Definition reads bd x k : Prop := forall fv,
  exists p fv', runs (fun n => aux n bd x fv) (p, fv') /\ rep bd k p /\ fvspec bd (kvars k) fv fv'.
Definition elem (cn : atom) (x : sx) : Prop :=
  nul_uri x = false /\ nul_atom x = false /\ match x with Sa a => equal_atoms a cn | Sl _ => false end = false /\
  really_equal x cn = false.
Inductive chain (cn : atom) (bd : list string) : list sx -> list core -> Prop :=
| C_nil : chain cn bd [] []
| C_mark l ks : is_uri cn = true -> nul cn = false -> chain cn bd l ks -> chain cn bd (Sa cn :: l) ks
| C_elem x l k ks : elem cn x -> reads bd x k -> chain cn bd l ks -> chain cn bd (x :: l) (k :: ks).
Definition comb (c : conn) (ispos isrev : bool) (p q : core) : core :=
  if ispos then if isrev then KBin c q p else KBin c p q else KNot (KBin c p q).
Fixpoint foldc (c : conn) (ispos isrev : bool) (k : core) (ks : list core) : core :=
  match ks with [] => k | k2 :: r => comb c ispos isrev (foldc c ispos isrev k2 r) k end.
Lemma uri_equal a : is_uri a = true -> equal_atoms a a = true.
Proof. intros H. unfold equal_atoms. rewrite H, String.eqb_refl. reflexivity. Qed.
Lemma mark_skip f cn nc ip ir l fv : is_uri cn = true -> nul cn = false ->
  unflatten f cn nc ip ir (Sa cn :: l) fv = unflatten f cn nc ip ir l fv.
Proof. intros U N. cbn [unflatten nul_uri]. rewrite N, !andb_false_r, (uri_equal cn U). reflexivity. Qed.
Lemma chain_none cn bd nc ip ir l ks f fv : chain cn bd l ks -> ks = [] ->
  unflatten f cn nc ip ir l fv = Done (None, fv).
Proof.
  induction 1; intros E; [reflexivity| |discriminate].
  rewrite mark_skip by assumption. auto.
Qed.
Lemma rep_not_conn bd k x c : rep bd k x -> really_equal x (Con c) = false.
Proof.
  intros H. apply rep_shape in H as [[b ->]|(y & l & ->)]; [|reflexivity].
  destruct b, c; reflexivity.
Qed.
Lemma chain_reads cn bd c ip ir l ks : chain cn bd l ks -> In c [CAnd; COr; CImp; CEqv] ->
  forall k r, ks = k :: r -> forall fv,
  exists p fv', runs (fun n => unflatten (fun y f => aux n bd y f) cn (Con c) ip ir l fv) (Some p, fv') /\
    rep bd (foldc c ip ir k r) p /\ fvspec bd (kvars (foldc c ip ir k r)) fv fv'.
Proof.
  intros H C. induction H as [|l ks U N H IH|x l k0 ks E R H IH]; intros k r Ek fv; [discriminate| |].
  - destruct (IH k r Ek fv) as (p & fv' & A & B & D). exists p, fv'. split; [|split; assumption].
    eapply runs_ext; [|exact A]. intros n. now apply mark_skip.
  - injection Ek as <- <-. destruct E as (E1 & E2 & E3 & E4).
    destruct ks as [|k2 r].
    + destruct (R fv) as (p & fv' & A & B & D). exists p, fv'. split; [|split; assumption].
      eapply runs_ext with (h := fun n => '(y, fv') <- aux n bd x fv ;; Done (Some y, fv')).
      * intros n. cbn [unflatten]. rewrite E1, andb_false_r, E3.
        destruct l as [|y l]; [reflexivity|].
        rewrite (chain_none cn bd (Con c) ip ir (y :: l) [] _ fv H eq_refl). cbn [bind]. rewrite E2, E4. reflexivity.
      * eapply runs_bind; [exact A|]. apply runs_done.
    + destruct (IH k2 r eq_refl fv) as (p & f1 & A & B & D).
      destruct (R f1) as (q & f2 & A2 & B2 & D2).
      assert (X : really_equal p (Con c) = false) by (eapply rep_not_conn; exact B).
      assert (Y : really_equal q (Con c) = false) by (eapply rep_not_conn; exact B2).
      exists (if ip then if ir then Sl [Sa (Con c); q; p] else Sl [Sa (Con c); p; q] else mk_not (Sl [Sa (Con c); p; q])), f2.
      split; [|split].
      * eapply runs_ext with (h := fun n =>
          '(a1r, fv1) <- unflatten (fun y f => aux n bd y f) cn (Con c) ip ir l fv ;;
          match a1r with
          | None => '(y, fv') <- aux n bd x fv1 ;; Done (Some y, fv')
          | Some p =>
              '(q, fv2) <- aux n bd x fv1 ;;
              Done (Some (if ip then if ir then if really_equal q (Con c) then p else Sl [Sa (Con c); q; p]
                                     else if really_equal p (Con c) then q else Sl [Sa (Con c); p; q]
                          else mk_not (if really_equal p (Con c) then q else Sl [Sa (Con c); p; q])), fv2)
          end).
        -- intros n. cbn [unflatten]. rewrite E1, andb_false_r, E3.
           destruct l as [|y l]; [inversion H|]. rewrite E2, E4. reflexivity.
        -- eapply runs_bind; [exact A|]. cbn beta iota.
           eapply runs_bind; [exact A2|]. cbn beta iota. rewrite X, Y. apply runs_done.
      * cbn [foldc]. unfold comb. destruct ip; [destruct ir|]; repeat first [apply R_not | apply R_bin]; assumption.
      * cbn [foldc]. unfold comb. destruct ip; [destruct ir|]; cbn [kvars].
        -- eapply fvspec_set with (A := kvars (foldc c true true k2 r) ++ kvars k0);
             [intros y; rewrite !in_app_iff; tauto|eapply fvspec_app; eassumption].
        -- eapply fvspec_app; eassumption.
        -- eapply fvspec_app; eassumption.
Qed.
Lemma rep_elem bd k x cn : rep bd k x -> In (astr cn) connectives -> elem cn x.
Proof.
  intros H I. pose proof (rep_quiet bd k x H) as (Q1 & Q2 & _).
  apply rep_shape in H as [[b ->]|(y & l & ->)].
  - split; [exact Q2|]. split; [exact Q1|]. split; [destruct b, cn; reflexivity|].
    unfold really_equal, is_str, tf. cbn [astr]. apply eqb_out. intros E. rewrite <- E in I.
    destruct b; cbn in I; intuition discriminate.
  - repeat split.
Qed.

(** ** wr_process_json_formula_aux on a list that was already read *)
Lemma logconn_quiet f l : Forall (fun x => is_connective x = false) l -> list_logconn f l = Done f.
Proof.
  induction 1 as [|x r E _ IH]; [reflexivity|]. cbn [list_logconn].
  destruct x as [a|l']; [rewrite E|]; exact IH.
Qed.
Lemma quiet_conn_all l : Forall quiet l -> Forall (fun x => is_connective x = false) l.
Proof. intros H. eapply Forall_impl; [|exact H]. intros x Q. apply Q. Qed.
(** A list whose head is an ordinary name goes to wr_process_json_term *)
Lemma aux_term n bd a r1 fv : Forall quiet r1 -> is_connective (Sa a) = false -> nul a = false ->
  ~ In (astr a) ["and"; "or"; "not"; "-"; "~"; "exists"; "forall"; "if"] ->
  aux (S n) bd (Sl (Sa a :: r1)) fv = term n true 0 bd (Sl (Sa a :: r1)) fv.
Proof.
  intros Q C N I. cbn [aux].
  rewrite (logconn_quiet None (Sa a :: r1)) by (constructor; [exact C|now apply quiet_conn_all]).
  cbn [bind]. cbn [nul_atom]. rewrite N.
  assert (M : forall s, In s ["and"; "or"; "not"; "-"; "~"; "exists"; "forall"; "if"] -> is_str (Sa a) s = false).
  { intros s Is. cbn [is_str]. apply eqb_out. intros <-. contradiction. }
  rewrite (M "and"), (M "or"), (M "exists"), (M "forall"), (M "if") by (cbn; tauto). cbn [andb].
  assert (E1 : match r1 with x1 :: _ => nul_uri x1 | [] => false end = false) by (destruct Q as [|x r [_ [E _]]]; [reflexivity|exact E]).
  rewrite E1.
  assert (E2 : match r1 with x1 :: _ :: _ => is_eq_op x1 | _ => false end = false).
  { destruct Q as [|x r Qx Qr]; [reflexivity|]. destruct r; [reflexivity|]. apply Qx. }
  rewrite E2.
  assert (E3 : is_one (Sa a) ["not"; "-"; "~"] = false) by (rewrite is_one_sa; apply mems_out; cbn in *; tauto).
  rewrite E3. reflexivity.
Qed.
Lemma outs_quiet bd ts xs : fold_right and True (map (legalT bd) ts) -> Forall2 inT ts xs -> Forall quiet xs.
Proof.
  intros L F. induction F as [|t x ts xs H F IH]; constructor.
  - eapply quiet_term; [apply L|exact H].
  - apply IH. apply L.
Qed.
Lemma calm_conn a : calm (astr a) -> is_connective (Sa a) = false /\ nul a = false /\
  ~ In (astr a) ["and"; "or"; "not"; "-"; "~"; "exists"; "forall"; "if"].
Proof.
  intros C. pose proof (quiet_name a C) as (Q1 & _ & _ & Q4 & _). repeat split; try assumption.
  intros I. apply C. cbn in *. intuition (subst; auto 40).
Qed.
Lemma tgood_reads bd k x : (forall n fv, aux (S n) bd x fv = term n true 0 bd x fv) -> tgood bd k x -> reads bd x k.
Proof.
  intros E T fv. destruct (T true 0 fv) as (x' & fv' & R & O & F). exists x', fv'. split; [|split; assumption].
  eapply runs_S; [intros n; apply E|exact R].
Qed.
Lemma reads_not bd h k x : In (astr h) ["not"; "-"; "~"] -> (is_uri h || is_anon h = true) -> quiet x ->
  reads bd x k -> reads bd (Sl [Sa h; x]) (KNot k).
Proof.
  intros I U Q R fv. destruct (R fv) as (p & fv' & A & B & D). exists (mk_not p), fv'.
  split; [|split; [constructor; exact B|exact D]].
  eapply runs_S.
  - intros n. cbn [aux list_logconn].
    assert (C : is_connective (Sa h) = true).
    { cbn [is_connective]. rewrite U. cbn [andb]. apply mems_in. cbn in *. intuition. }
    rewrite C. destruct Q as (Q1 & Q2 & Q3 & Q4 & _).
    assert (L : list_logconn (Some h) [x] = Done (Some h)) by (cbn; destruct x; [rewrite Q4|]; reflexivity).
    cbn [list_logconn] in L. rewrite L. cbn [bind].
    assert (E1 : nul_atom (Sa h) = false).
    { cbn. unfold nul. apply eqb_out. intros E. rewrite E in I. cbn in I. intuition discriminate. }
    rewrite E1. rewrite !andb_false_r, Q2.
    assert (E2 : is_one (Sa h) ["not"; "-"; "~"] = true) by (rewrite is_one_sa; now apply mems_in).
    rewrite E2. reflexivity.
  - cbn beta. eapply runs_bind; [exact A|]. apply runs_done.
Qed.
Lemma reads_quant bd h c vs k x : (astr h = "exists" /\ c = CEx \/ astr h = "forall" /\ c = CAll) ->
  (is_uri h || is_anon h = true) -> vs <> [] -> Forall var_name vs -> quiet x ->
  reads (vs ++ bd) x k -> reads bd (Sl [Sa h; Sl (map uri vs); x]) (KQ c vs k).
Proof.
  intros I U N V Q R fv. destruct (R fv) as (p & fv' & A & B & D). exists (Sl [Sa (Con c); Sl (map uri vs); p]), fv'.
  split; [|split; [constructor; try assumption; cbn; intuition (subst; auto)|apply fvspec_q; exact D]].
  eapply runs_S with (h := fun n => '(b', fv') <- aux n (vs ++ bd) x fv ;; Done (Sl [Sa (Con c); Sl (map uri vs); b'], fv')).
  - intros n. cbn [aux list_logconn].
    assert (C : is_connective (Sa h) = true).
    { cbn [is_connective]. rewrite U. cbn [andb]. apply mems_in. cbn. intuition. }
    rewrite C. destruct Q as (Q1 & Q2 & Q3 & Q4 & _).
    assert (L : list_logconn (Some h) [x] = Done (Some h)) by (cbn; destruct x; [rewrite Q4|]; reflexivity).
    cbn [list_logconn] in L. rewrite L. cbn [bind].
    assert (E1 : nul_atom (Sa h) = false).
    { cbn. unfold nul. apply eqb_out. intros E. rewrite E in I. intuition discriminate. }
    rewrite E1. rewrite !andb_false_r. cbn [nul_uri is_eq_op].
    assert (E2 : is_one (Sa h) ["not"; "-"; "~"] = false).
    { rewrite is_one_sa. apply mems_out. destruct I as [[-> _]|[-> _]]; cbn; intuition discriminate. }
    rewrite E2.
    replace (is_varlist (Sl (map uri vs))) with (varlist_els (map uri vs)) by reflexivity.
    rewrite (varlist_uri vs V), names_uri. cbn [bind negb].
    destruct I as [[E ->]|[E ->]]; cbn [is_str]; rewrite E; reflexivity.
  - eapply runs_bind; [exact A|]. apply runs_done.
Qed.
Lemma reads_andor bd c k l x y : c = CAnd \/ c = COr -> bd_ok bd -> rep bd k x -> rep bd l y ->
  reads bd x k -> reads bd y l -> reads bd (Sl [Sa (Con c); x; y]) (KBin c k l).
Proof.
  intros C Bo Rx Ry Ax Ay fv.
  destruct (Ax fv) as (p & f1 & A1 & B1 & D1). destruct (Ay f1) as (q & f2 & A2 & B2 & D2).
  exists (Sl [Sa (Con c); p; q]), f2.
  split; [|split; [constructor; [cbn; intuition|assumption|assumption]|cbn; eapply fvspec_app; eassumption]].
  pose proof (rep_quiet _ _ _ Rx) as (X1 & X2 & X3 & X4 & _). pose proof (rep_quiet _ _ _ Ry) as (Y1 & Y2 & Y3 & Y4 & _).
  assert (I : In (astr (Con c)) connectives) by (destruct C as [->| ->]; cbn; tauto).
  pose proof (rep_elem _ _ _ (Con c) Rx I) as (Ex1 & Ex2 & Ex3 & Ex4).
  pose proof (rep_elem _ _ _ (Con c) Ry I) as (Ey1 & Ey2 & Ey3 & Ey4).
  eapply runs_S with (h := fun n =>
    '(r, fv') <- unflatten (fun y f => aux n bd y f) (Con c) (Con c) true false [y; x; Sa (Con c)] fv ;;
    match r with Some y => Done (y, fv') | None => Odd end).
  - intros n. cbn [aux list_logconn].
    assert (Cc : is_connective (Sa (Con c)) = true) by (destruct C as [->| ->]; reflexivity). rewrite Cc.
    assert (L : list_logconn (Some (Con c)) [x; y] = Done (Some (Con c))).
    { apply logconn_quiet. repeat constructor; assumption. }
    cbn [list_logconn] in L. rewrite L. cbn [bind].
    assert (E1 : nul_atom (Sa (Con c)) = false) by (destruct C as [->| ->]; reflexivity). rewrite E1.
    rewrite !andb_false_r, X2, X3.
    destruct C as [->| ->]; reflexivity.
  - eapply runs_bind with (a := (Some (Sl [Sa (Con c); p; q]), f2)); [|apply runs_done].
    eapply runs_ext with (h := fun n =>
      '(p0, g0) <- aux n bd (Sa (Con c)) fv ;;
      '(p1, g1) <- aux n bd x g0 ;;
      '(p2, g2) <- aux n bd y g1 ;;
      Done (Some (let r := if really_equal p0 (Con c) then p1 else Sl [Sa (Con c); p0; p1] in
                  if really_equal r (Con c) then p2 else Sl [Sa (Con c); r; p2]), g2)).
    + intros n. cbn [unflatten]. cbn [is_uri andb].
      rewrite Ey3, Ex3. unfold equal_atoms. cbn [is_uri andb].
      destruct (aux n bd (Sa (Con c)) fv) as [[p0 g0]| | | |]; cbn [bind]; try reflexivity.
      rewrite Ex2, Ex4. destruct (aux n bd x g0) as [[p1 g1]| | | |]; cbn [bind]; try reflexivity.
      rewrite Ey2, Ey4. reflexivity.
    + eapply runs_bind with (a := (Sa (Con c), fv)).
      * eapply runs_S; [intros n; cbn [aux]; cbn [is_uri andb]; reflexivity|].
        eapply runs_S; [intros n; cbn [term]; rewrite tatom_conn by exact Bo; reflexivity|]. apply runs_done.
      * cbn beta iota. eapply runs_bind; [exact A1|]. cbn beta iota. eapply runs_bind; [exact A2|]. cbn beta iota zeta.
        assert (E : really_equal (Sa (Con c)) (Con c) = true) by (unfold really_equal; cbn [is_str]; apply String.eqb_refl).
        rewrite E, (rep_not_conn _ _ _ c B1). apply runs_done.
Qed.
Lemma rep_reads bd k x : rep bd k x -> bd_ok bd -> reads bd x k.
Proof.
  induction 1 as [bd b|bd p a ts us N G B A L F|bd h a b u v Hh La Lb Oa Ob|bd k x H IH|bd c k l x y C H IHx H' IHy|bd c vs k x C N V H IH];
    intros Bo.
  - apply tgood_reads; [reflexivity|]. apply rep_term; [constructor|exact Bo].
  - pose proof (head_out_in p a A) as Ai. destruct (head_in_str p a Ai) as [SA UA].
    destruct (calm_conn a) as (C1 & C2 & C3); [rewrite SA; now apply name_calm|].
    apply tgood_reads; [|apply rep_term; [econstructor; eassumption|exact Bo]].
    intros n fv. apply aux_term; try assumption. eapply outs_quiet; [exact L|now apply outs_in].
  - apply tgood_reads; [|apply rep_term; [econstructor; eassumption|exact Bo]].
    intros n fv. apply aux_term.
    + constructor; [eapply quiet_term; [exact La|now apply outT_in]|]. constructor; [|constructor].
      eapply quiet_term; [exact Lb|now apply outT_in].
    + destruct Hh as [->| ->]; reflexivity.
    + destruct Hh as [->| ->]; reflexivity.
    + destruct Hh as [->| ->]; cbn; intuition discriminate.
  - apply reads_not; [cbn; tauto|reflexivity|eapply rep_quiet; exact H|auto].
  - cbn in C. destruct C as [<-|[<-|C]].
    + apply reads_andor; auto.
    + apply reads_andor; auto.
    + apply tgood_reads; [|apply rep_term; [constructor; [cbn; tauto|assumption|assumption]|exact Bo]].
      intros n fv. apply aux_term.
      * repeat constructor; eapply rep_quiet; eassumption.
      * destruct C as [<-|[<-|[]]]; reflexivity.
      * destruct C as [<-|[<-|[]]]; reflexivity.
      * destruct C as [<-|[<-|[]]]; cbn; intuition discriminate.
  - cbn in C. destruct C as [<-|[<-|[]]].
    + apply tgood_reads; [|apply rep_term; [constructor; [cbn; tauto|assumption|assumption|assumption]|exact Bo]].
      intros n fv. apply aux_term; try reflexivity.
      * constructor; [apply quiet_list|]. constructor; [eapply rep_quiet; eassumption|constructor].
      * cbn. intuition discriminate.
    + apply reads_quant; [left; split; reflexivity|reflexivity|assumption|assumption|eapply rep_quiet; exact H|].
      apply IH. now apply bd_app.
Qed.
