(** Objects of a file *)
From Coq Require Import ZArith Lia Arith String Ascii Bool List FinFun.
From Verif Require Import ClausModel ClausSpec JsModel JsSpec JsBase JsTerm JsCore JsRead JsMain LdModel LdSpec LdProof.
Import ListNotations.
Open Scope string_scope.
Open Scope list_scope.

(** The keys in front that the loop passes over *)
Definition front (pre : list (string * jv)) : Prop := Forall (fun p => In (fst p) ["@role"; "@logic"]) pre.
Lemma get_front key pre kvs : front pre -> ~ In key ["@role"; "@logic"] -> get key (pre ++ kvs) = get key kvs.
Proof.
  intros F N. induction F as [|[k v] pre I F IH]; [reflexivity|]. cbn [fst] in I. cbn [app get].
  assert (E : k <> "") by (intros ->; cbn in I; intuition discriminate).
  rewrite (eqb_out k "" E), (eqb_out k key) by (intros ->; contradiction). exact IH.
Qed.
Lemma entries_front nst gid named id ext seed pre kvs : front pre ->
  entries nst gid named id ext seed (pre ++ kvs) = entries nst gid named id ext seed kvs.
Proof.
  induction 1 as [|[k v] pre I F IH]; [reflexivity|]. cbn [fst] in I.
  destruct I as [<-|[<-|[]]]; cbn [app entries]; exact IH.
Qed.
(** The name is generated at the first key *)
Lemma entries_lazy s kvs ns ts : object_says s kvs ns ts -> ts <> [] -> forall nst gid named ext seed,
  entries nst gid named None ext seed kvs = entries nst gid named (Some (made seed)) ext (S seed) kvs.
Proof.
  intros H. induction H as [s|s r ns ts _ _ IH|s nm r ns ts _ IH|s v r ns ms ts us _ _ IH|s k v r ns ms ts us K _ _ IH]; intros N nst gid named ext seed.
  - contradiction.
  - cbn [entries]. exact (IH N nst gid named ext seed).
  - cbn [entries]. exact (IH N nst gid named ext seed).
  - reflexivity.
  - destruct (key_plain k K) as (_ & Sp & _). cbn [entries]. rewrite Sp. reflexivity.
Qed.
Lemma object_ne s kvs ns ts : object_says s kvs ns ts -> ts <> [] -> kvs <> [].
Proof. intros H N ->. inversion H. subst. contradiction. Qed.

(** The triples of an object of the file, with something in front *)
Lemma top_entries kvs ns0 ts0 : says kvs ns0 ts0 -> ts0 <> [] -> forall seed named pre, front pre -> exists n ts x o i,
  says kvs (names seed n) ts /\ ts <> [] /\ good (Some x) ts /\
  get "@id" (pre ++ kvs) = Done o /\
  (id <- match o with None => Done None | Some v => i <- given v ;; Done (Some i) end ;; Done id) = Done i /\
  exists j, runs (fun f => entries (nest f) None named i None seed (pre ++ kvs)) (j, Some x, seed + n).
Proof.
  intros H N0 seed named pre F.
  assert (Gf : get "@id" (pre ++ kvs) = get "@id" kvs) by (apply get_front; [exact F|cbn; intuition discriminate]).
  destruct H as [i kvs ns ts I O|x kvs ns ts I Nx O].
  - assert (J : In "@id" (map fst kvs)) by (apply (in_map fst) in I; exact I).
    destruct (proj1 (get_id _ _ _ _ O) J) as [Gi Wi].
    destruct (proj2 (proj2 says_runs) _ _ _ _ O Wi i (mkid i) None [] seed named Wi (fun _ => eq_refl) (mkid_word i Wi) eq_refl)
      as (n & ts' & ext & A & B & C & R & G). cbn [app] in G.
    assert (Nt : ts' <> []) by (intros ->; destruct ts; [contradiction|discriminate]).
    destruct ext as [y|]; [|contradiction].
    exists n, ts', y, (Some (NStr i)), (Some (mkid i)). split; [eapply S_ref; eassumption|]. split; [exact Nt|]. split; [exact G|].
    split; [rewrite Gf; exact Gi|]. split; [cbn [given]; rewrite (word_ne i Wi); reflexivity|].
    exists (Some (mkid i)). eapply runs_ext; [intros f; apply entries_front; exact F|]. exact R.
  - assert (Wx : word_ok x) by (right; exact Nx). assert (Wc : word_ok (crtd seed)) by (right; apply crtd_ok).
    destruct (proj2 (proj2 says_runs) _ _ _ _ O Wx (crtd seed) (made seed) None [] (S seed) named Wc ltac:(intros J; contradiction) (made_word seed) eq_refl)
      as (n & ts' & ext & A & B & C & R & G). cbn [app] in G.
    assert (Nt : ts' <> []) by (intros ->; destruct ts; [contradiction|discriminate]).
    destruct ext as [y|]; [|contradiction].
    exists (S n), ts', y, None, None. split.
    { change (names seed (S n)) with (crtd seed :: names (S seed) n). eapply S_anon; [exact I|apply crtd_ok|exact A]. }
    split; [exact Nt|]. split; [exact G|].
    split; [rewrite Gf; apply (proj2 (get_id _ _ _ _ O)); exact I|]. split; [reflexivity|].
    exists (Some (made seed)). eapply runs_ext; [intros f; rewrite entries_front by exact F; eapply entries_lazy; eassumption|].
    rewrite Nat.add_succ_r. exact R.
Qed.
Lemma says_object kvs ns ts : says kvs ns ts -> exists s ms, object_says s kvs ms ts.
Proof. intros H. destruct H; eauto. Qed.

(** What is left under "@logic" *)
Lemma top_struct kvs ns0 ts0 : says kvs ns0 ts0 -> ts0 <> [] -> forall seed top pre ro lo lg, front pre ->
  get "@role" (pre ++ kvs) = Done ro -> get "@logic" (pre ++ kvs) = Done lo -> logic_of lo = Done lg ->
  (ro = None \/ top = true) -> exists n ts x,
  says kvs (names seed n) ts /\ ts <> [] /\ good (Some x) ts /\
  forall c, match lg with
            | None => c = CSx x
            | Some (CSx l) => exists a, asks ro = Done a /\ c = CSx (if a : bool then neg_or l x else Sl [Sa (Con CAnd); l; x])
            | Some (CObj _) => False
            end ->
  runs (fun f => struct f top None (pre ++ kvs) seed) (Some c, seed + n).
Proof.
  intros H N0 seed top pre ro lo lg F Gr Gl Lg Tr.
  destruct (says_object _ _ _ H) as (s & ms & O).
  destruct (top_entries kvs ns0 ts0 H N0 seed (is_some (match get "@id" (pre ++ kvs) with Done o => o | _ => None end) || existsb (fun p => negb (special_key (fst p))) (pre ++ kvs)) pre F)
    as (n & ts & x & o & i & A & B & C & Gi & Ei & j & R).
  exists n, ts, x. split; [exact A|]. split; [exact B|]. split; [exact C|]. intros c Hc.
  eapply runs_S; [intros f; apply struct_S|].
  assert (Ne : exists kv r, pre ++ kvs = kv :: r).
  { pose proof (object_ne _ _ _ _ O N0) as Nk. destruct pre as [|p pre]; cbn; [|eauto]. destruct kvs; [contradiction|eauto]. }
  destruct Ne as (kv & r & E). rewrite E in *.
  assert (K : forall key, In key ["@graph"; "@question"; "@context"] -> get key (kv :: r) = Done None).
  { intros key J. rewrite <- E, get_front; [|exact F|cbn in *; intuition (subst; discriminate)].
    eapply get_none; [exact O| |]; cbn in *; intuition (subst; try discriminate; auto 20). }
  destruct (get_name _ _ _ _ O) as (nm & Gn).
  assert (Gn' : get "@name" (kv :: r) = Done nm).
  { rewrite <- E, get_front; [exact Gn|exact F|cbn; intuition discriminate]. }
  rewrite Gi in *. rewrite Gn', Gr, Gl. cbn [bind]. rewrite !K by (cbn; auto 10). cbn [bind is_some].
  rewrite orb_false_r.
  replace (is_some ro && negb top) with false by (destruct Tr as [->| ->]; [reflexivity|rewrite andb_false_r; reflexivity]).
  assert (Ei' : match o with None => Done None | Some v => i <- given v ;; Done (Some i) end = Done i).
  { destruct o as [v|]; [destruct (given v); cbn in *; try discriminate; exact Ei|exact Ei]. }
  rewrite Ei'. cbn [bind]. eapply runs_bind; [exact R|]. cbn beta iota. rewrite Lg. cbn [bind].
  destruct lg as [[l|kk]|].
  - destruct Hc as (a & Ea & ->). rewrite Ea. cbn [bind]. apply runs_done.
  - contradiction.
  - subst c. apply runs_done.
Qed.

(** ** Formulas in objects *)
Lemma plains_map js : Forall (fun j => plainv (value_of j) = Some j) js -> plains (map value_of js) = Some js.
Proof. induction 1 as [|j js H _ IH]; [reflexivity|]. cbn [map plains]. rewrite H. fold plains. rewrite IH. reflexivity. Qed.
Lemma plainv_of : forall j, plainv (value_of j) = Some j.
Proof.
  fix IH 1. intros [b|z|s|l]; try reflexivity. cbn [value_of]. rewrite plainv_arr, plains_map; [reflexivity|].
  induction l as [|j l IHl]; constructor; [apply IH|exact IHl].
Qed.
Lemma logic_plain j : logic_of (Some (value_of j)) = Done (Some (CSx (raw j))).
Proof. unfold logic_of. pose proof (plainv_of j) as P. destruct j; cbn [value_of] in *; rewrite ?P; reflexivity. Qed.
Lemma reads_form f j : legal [] f -> spells f j -> exists k, reads [] (raw j) k /\ keq k f.
Proof.
  intros L S. exact (form_reads (fsize f) [] f j ltac:(lia) ltac:(constructor) L S).
Qed.
Lemma reads_not x k : flike x -> reads [] x k -> reads [] (Sl [Sa (Con CNot); x]) (KNot k).
Proof.
  intros F R fv. destruct (R fv) as (p & f1 & A & B & D). exists (mk_not p), f1.
  pose proof (flike_quiet x F) as (Q1 & Q2 & Q3 & Q4 & _).
  split; [|split; [apply R_not; exact B|exact D]].
  eapply runs_S with (h := fun n => '(y, fv') <- aux n [] x fv ;; Done (mk_not y, fv')).
  - intros n. cbn [aux].
    replace (list_logconn None [Sa (Con CNot); x]) with (Done (Some (Con CNot))).
    + cbn [bind]. rewrite Q2. reflexivity.
    + cbn [list_logconn]. change (is_connective (Sa (Con CNot))) with true. cbn [list_logconn].
      destruct x; [rewrite Q4|]; reflexivity.
  - eapply runs_bind; [exact A|apply runs_done].
Qed.

Lemma conv_runs x k f top seed : reads [] x k -> keq k f -> exists p fv,
  runs (fun n => conv n top None (CSx x) seed) (Some (p, fv), seed) /\ rep [] k p /\ (forall y, In y (rev fv) <-> In y (fvars f)).
Proof.
  intros R [_ V]. destruct (R []) as (p & fv & A & B & D). exists p, fv. split; [|split; [exact B|]].
  - eapply runs_S; [intros n; reflexivity|]. eapply runs_bind; [exact A|apply runs_done].
  - intros y. rewrite <- in_rev, (D y), V. cbn. tauto.
Qed.
(** The meaning of the end result, by role *)
Definition means {D} (J : stint D) (r : role) (f : form) (out : sx) : Prop :=
  match r with
  | RAx | RNegConj => sem (int_of J) none out <-> true_in (world_of J) f
  | RConj => sem (int_of J) none out <-> ~ true_in (world_of J) f
  | RQuest => exists vs, (forall x, In x vs <-> In x (fvars f)) /\
      (sem (int_of J) none out <->
       match vs with
       | [] => ~ true_in (world_of J) f
       | _ => forall v, truth (world_of J) v f -> wp (world_of J) "$ans" (map v vs)
       end)
  end.
Lemma finish_means {D} (J : stint D) (d : D) r f k p fv : rep [] k p -> keq k f -> (forall y, In y (rev fv) <-> In y (fvars f)) ->
  means J r f (finish r p fv).
Proof.
  intros R K V. unfold finish. pose proof (close_none J d f k p (rev fv) R K V) as C. destruct r; cbn [means].
  - exact C.
  - cbn [mk_not sem]. rewrite C. reflexivity.
  - exact C.
  - exists (rev fv). split; [exact V|]. destruct (rev fv) as [|x vs] eqn:E.
    + cbn [mk_not sem]. cbn [close] in C. rewrite C. reflexivity.
    + rewrite <- E in *. apply (question_sem J d f k p (rev fv) R K V).
Qed.
Lemma role_end kvs r ro : get "@role" kvs = Done ro -> role_of ro = Done r ->
  forall c seed n p fv, get "@question" kvs = Done None ->
  runs (fun f => struct f true None kvs seed) (Some c, n) -> runs (fun f => conv f true None c n) (Some (p, fv), n) ->
  runs (fun f => read_obj f kvs seed) (Some (finish r p fv), n).
Proof.
  intros G Ro c seed n p fv Gq S1 S2. unfold read_obj. rewrite Gq. cbn [bind]. eapply runs_bind; [exact S1|]. cbn beta iota.
  rewrite G. cbn [bind]. rewrite Ro. cbn [bind]. eapply runs_bind; [exact S2|apply runs_done].
Qed.
Lemma says_question kvs ns ts pre : says kvs ns ts -> front pre -> get "@question" (pre ++ kvs) = Done None.
Proof.
  intros H F. destruct (says_object _ _ _ H) as (s & ms & O). rewrite get_front; [|exact F|cbn; intuition discriminate].
  eapply get_none; [exact O| |]; cbn; intuition discriminate.
Qed.
Lemma says_get kvs ns ts key : says kvs ns ts -> In key ["@role"; "@logic"; "@question"] -> get key kvs = Done None.
Proof.
  intros H I. destruct (says_object _ _ _ H) as (s & ms & O).
  eapply get_none; [exact O| |]; cbn in *; intuition (subst; try discriminate; auto 20).
Qed.

(** ** The four kinds of objects *)
Lemma plain_object kvs ns0 ts0 : says kvs ns0 ts0 -> ts0 <> [] -> forall seed, exists n ts out,
  says kvs (names seed n) ts /\ ts <> [] /\ runs (fun f => read_obj f kvs seed) (Some out, seed + n) /\
  forall D (J : stint D), inhabited D -> means J RAx (FAnd (map arc ts)) out.
Proof.
  intros H N0 seed.
  destruct (top_struct kvs ns0 ts0 H N0 seed true [] None None None (Forall_nil _)
    (says_get _ _ _ "@role" H ltac:(cbn; auto)) (says_get _ _ _ "@logic" H ltac:(cbn; auto)) eq_refl (or_introl eq_refl)) as (n & ts & x & A & B & (_ & _ & k & R & K) & S).
  destruct (conv_runs x k _ true (seed + n) R K) as (p & fv & C1 & C2 & C3).
  exists n, ts, (finish RAx p fv). split; [exact A|]. split; [exact B|]. split.
  - eapply role_end; [exact (says_get _ _ _ "@role" H ltac:(cbn; auto))|reflexivity|exact (says_get _ _ _ "@question" H ltac:(cbn; auto))|apply S; reflexivity|exact C1].
  - intros D J [d]. eapply finish_means; eassumption.
Qed.
Lemma logic_object kvs ns0 ts0 f j ro r a : says kvs ns0 ts0 -> ts0 <> [] -> legal [] f -> spells f j ->
  asks ro = Done a -> role_of ro = Done r -> forall seed, exists n ts out,
  says kvs (names seed n) ts /\ ts <> [] /\
  runs (fun g => read_obj g ((match ro with Some v => [("@role", v)] | None => [] end ++ [("@logic", value_of j)]) ++ kvs) seed) (Some out, seed + n) /\
  forall D (J : stint D), inhabited D ->
    means J r (if a : bool then FOr [f; FNot (FAnd (map arc ts))] else FAnd (f :: map arc ts)) out.
Proof.
  intros H N0 L Sp As Ro seed. set (pre := match ro with Some v => [("@role", v)] | None => [] end ++ [("@logic", value_of j)]).
  assert (F : front pre).
  { unfold pre. destruct ro; cbn; repeat (apply Forall_cons; [cbn; auto|]); apply Forall_nil. }
  assert (Gr : get "@role" (pre ++ kvs) = Done ro).
  { unfold pre. destruct ro; cbn; [reflexivity|]. exact (says_get _ _ _ "@role" H ltac:(cbn; auto)). }
  assert (Gl : get "@logic" (pre ++ kvs) = Done (Some (value_of j))) by (unfold pre; destruct ro; reflexivity).
  destruct (top_struct kvs ns0 ts0 H N0 seed true pre ro _ _ F Gr Gl (logic_plain j) (or_intror eq_refl)) as (n & ts & x & A & B & (_ & Fx & k & R & K) & S).
  destruct (reads_form f j L Sp) as (kf & Rf & Kf). pose proof (raw_flike f j Sp) as Fj.
  set (c := if a then neg_or (raw j) x else Sl [Sa (Con CAnd); raw j; x]).
  assert (X : exists kc, reads [] c kc /\ keq kc (if a then FOr [f; FNot (FAnd (map arc ts))] else FAnd (f :: map arc ts))).
  { unfold c. destruct a.
    - exists (KBin COr kf (KNot k)). split.
      + apply reads_pair; [right; reflexivity|exact Fj|right; eauto|exact Rf|now apply reads_not].
      + destruct Kf as [T1 V1], K as [T2 V2]. split.
        * intros D w v. cbn [ctruth]. rewrite (T1 D w v), (T2 D w v). cbn. tauto.
        * intros y. cbn [kvars]. rewrite in_app_iff, V1, V2. cbn [fvars flat_map]. rewrite !in_app_iff. cbn. tauto.
    - exists (KBin CAnd kf k). split; [apply reads_pair; auto|].
      destruct Kf as [T1 V1], K as [T2 V2]. split.
      + intros D w v. cbn [ctruth]. rewrite (T1 D w v), (T2 D w v). cbn. tauto.
      + intros y. cbn [kvars]. rewrite in_app_iff, V1, V2. cbn [fvars flat_map]. rewrite in_app_iff. tauto. }
  destruct X as (kc & Rc & Kc). destruct (conv_runs c kc _ true (seed + n) Rc Kc) as (p & fv & C1 & C2 & C3).
  exists n, ts, (finish r p fv). split; [exact A|]. split; [exact B|]. split.
  - eapply role_end; [exact Gr|exact Ro|eapply says_question; eassumption| |exact C1].
    apply S. exists a. split; [exact As|reflexivity].
  - intros D J [d]. eapply finish_means; eassumption.
Qed.
(** A question put as an object *)
Lemma question_object kvs ns0 ts0 : says kvs ns0 ts0 -> ts0 <> [] -> forall seed, exists n ts out,
  says kvs (names seed n) ts /\ ts <> [] /\ runs (fun f => read_obj f [("@question", NObj kvs)] seed) (Some out, seed + n) /\
  forall D (J : stint D), inhabited D -> means J RQuest (FAnd (map arc ts)) out.
Proof.
  intros H N0 seed.
  destruct (top_struct kvs ns0 ts0 H N0 seed true [] None None None (Forall_nil _)
    (says_get _ _ _ "@role" H ltac:(cbn; auto)) (says_get _ _ _ "@logic" H ltac:(cbn; auto)) eq_refl (or_introl eq_refl)) as (n & ts & x & A & B & (_ & _ & k & R & K) & S).
  destruct (conv_runs x k _ true (seed + n) R K) as (p & fv & C1 & C2 & C3).
  exists n, ts, (finish RQuest p fv). split; [exact A|]. split; [exact B|]. split.
  - unfold read_obj. cbn [get bind is_some orb requestion]. change (String.eqb "@question" "") with false.
    change (String.eqb "@question" "@question") with true. cbn [bind requestion].
    change (String.eqb "@question" "@logic") with false. change (String.eqb "@question" "@role") with false. cbn [bind is_some orb].
    eapply runs_bind with (a := (Some (CObj kvs), seed)).
    + eapply runs_S; [intros f; apply struct_S|]. apply runs_1. intros f. reflexivity.
    + cbn beta iota. eapply runs_bind with (a := Some (NStr "question")); [apply runs_1; reflexivity|].
      eapply runs_bind with (a := RQuest); [apply runs_1; reflexivity|].
      eapply runs_bind with (a := (Some (p, fv), seed + n)); [|apply runs_done].
      eapply runs_S; [intros f; reflexivity|].
      destruct kvs as [|kv kvs]; [destruct (says_object _ _ _ H) as (s & ms & O); inversion O; subst; contradiction|].
      eapply runs_bind; [apply S; reflexivity|]. exact C1.
  - intros D J [d]. eapply finish_means; eassumption.
Qed.
(** ** Files *)
Lemma file_reads : forall objs, Forall (fun kvs => exists ns ts, says kvs ns ts /\ ts <> []) objs -> forall seed, exists n ps outs,
  runs (fun f => read_objs f objs seed) (outs, seed + n) /\ concat (map fst ps) = names seed n /\
  Forall2 (fun kvs p => says kvs (fst p) (snd p)) objs ps /\
  forall D (J : stint D), inhabited D -> Forall2 (fun p out => sem (int_of J) none out <-> true_in (world_of J) (FAnd (map arc (snd p)))) ps outs.
Proof.
  induction 1 as [|kvs objs (ns0 & ts0 & H & N0) F IH]; intros seed.
  - exists 0, [], []. split; [rewrite Nat.add_0_r; apply runs_done|]. split; [reflexivity|]. split; [constructor|]. intros D J _. constructor.
  - destruct (plain_object kvs ns0 ts0 H N0 seed) as (n & ts & out & A & B & R & M).
    destruct (IH (seed + n)) as (m & ps & outs & Rs & Cn & Sn & Ms).
    exists (n + m), ((names seed n, ts) :: ps), (out :: outs). split; [|split; [|split]].
    + destruct (says_object _ _ _ H) as (s & ms & O). pose proof (object_ne _ _ _ _ O N0) as Nk.
      destruct kvs as [|kv kvs]; [contradiction|]. rewrite Nat.add_assoc.
      eapply runs_ext; [intros f; cbn [read_objs]; reflexivity|]. eapply runs_bind; [exact R|]. cbn beta iota.
      eapply runs_bind; [exact Rs|apply runs_done].
    + cbn [map fst concat]. rewrite Cn, names_app. reflexivity.
    + constructor; [exact A|exact Sn].
    + intros D J I. constructor; [exact (M D J I)|exact (Ms D J I)].
Qed.
Lemma forall2_iff {A B} (R : A -> B -> Prop) (P : A -> Prop) (Q : B -> Prop) l m :
  Forall2 R l m -> (forall x y, R x y -> (Q y <-> P x)) -> (Forall Q m <-> Forall P l).
Proof.
  intros F E. induction F as [|x y l m H F IH]; [split; constructor|].
  split; intros X; inversion X; subst; constructor; try (apply IH; assumption); apply (E x y H); assumption.
Qed.
Lemma names_nodup a n : NoDup (names a n).
Proof.
  unfold names. apply FinFun.Injective_map_NoDup; [intros x y; apply crtd_inj|apply seq_NoDup].
Qed.
Lemma names_prefix a n x : In x (names a n) -> String.prefix "_:crtd_" x = true.
Proof. unfold names. intros I. apply in_map_iff in I as (k & <- & _). unfold crtd. cbn. destruct (zdec (Z.of_nat k)); reflexivity. Qed.
(** Triples without variables *)
Lemma closed_or {D} (w : world D) f T : (forall v v', truth w v T -> truth w v' T) -> inhabited D ->
  (~ true_in w (FOr [f; FNot T]) <-> ~ (true_in w T -> true_in w f)).
Proof.
  intros C [d]. unfold true_in. cbn [truth map fold_right]. split.
  - intros H X. apply H. intros v. assert (Q : ~ ~ (truth w v T \/ ~ truth w v T)) by tauto.
    exfalso. apply Q. intros [Y|Y].
    + apply H. intros v'. left. apply X. intros v2. apply (C v v2 Y).
    + apply H. intros v'. right. left. intros Z. apply Y, (C v' v Z).
  - intros H X. apply H. intros Y v. destruct (X v) as [Z|[Z|[]]]; [exact Z|]. exfalso. apply Z, Y.
Qed.
