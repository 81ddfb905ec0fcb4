(** Reading of objects: the formula that is made says the triples of the object *)
From Coq Require Import ZArith Lia Arith String Ascii Bool List DecimalZ.
From Verif Require Import ClausModel ClausSpec JsModel JsSpec JsBase JsTerm JsCore JsRead JsMain LdModel LdSpec.
Import ListNotations.
Open Scope string_scope.
Open Scope list_scope.

(** ** Names *)
Lemma zdec_inj a b : zdec a = zdec b -> a = b.
Proof.
  intros E. pose proof (zdec_back a) as A. rewrite E, (zdec_back b) in A. injection A as A.
  rewrite <- (DecimalZ.of_to a), <- (DecimalZ.of_to b), A. reflexivity.
Qed.
Lemma crtd_inj a b : crtd a = crtd b -> a = b.
Proof. unfold crtd. cbn. intros E. injection E as E. apply zdec_inj in E. lia. Qed.
Lemma crtd_ok k : name_ok (crtd k).
Proof.
  unfold name_ok, crtd. cbn [append]. split; [discriminate|]. split; [reflexivity|].
  split; cbn; intuition discriminate.
Qed.
Lemma ok_word s : word_ok s -> legalT [] (word s).
Proof.
  intros H. unfold word. destruct (qvar s) eqn:Q; [left; exact Q|].
  destruct H as [H|H]; [congruence|]. cbn. split; [exact H|tauto].
Qed.
Lemma name_word s : name_ok s -> word s = TC s.
Proof. intros (_ & P & _). unfold word. rewrite (prefix_qvar s P). reflexivity. Qed.
Lemma name_anon s : name_ok s -> inT (TC s) (Sa (anon s)).
Proof. intros H. rewrite (anon_calm s (name_calm s H)). apply IT_cst. right. reflexivity. Qed.
Lemma qvar_prefix s : qvar s = true -> String.prefix "?:" s = true.
Proof. unfold qvar. intros H. apply andb_true_iff in H as [H _]. exact H. Qed.
Lemma uri_word s : word_ok s -> inT (word s) (uris s).
Proof.
  intros H. unfold word. destruct (qvar s) eqn:Q; [apply IT_var|].
  destruct H as [H|H]; [congruence|]. apply IT_cst. left. reflexivity.
Qed.
Lemma mkid_word s : word_ok s -> inT (word s) (mkid s).
Proof.
  intros H. unfold mkid. destruct (String.prefix "_:" s || String.prefix "?:" s) eqn:E; [now apply uri_word|].
  apply orb_false_iff in E as [_ E]. unfold word. rewrite (prefix_qvar s E).
  destruct H as [H|H]; [rewrite (prefix_qvar s E) in H; discriminate|]. now apply name_anon.
Qed.
Lemma made_word k : inT (word (crtd k)) (made k).
Proof. rewrite (name_word _ (crtd_ok k)). apply name_anon, crtd_ok. Qed.
Lemma word_ne s : word_ok s -> String.eqb s "" = false.
Proof. intros [H|H]; apply eqb_out; [intros ->; discriminate|apply H]. Qed.
Lemma str_word s : word_ok s -> inT (word s) (if String.prefix "?:" s then uris s else Sa (anon s)).
Proof.
  intros H. destruct (String.prefix "?:" s) eqn:E; [now apply uri_word|].
  unfold word. rewrite (prefix_qvar s E). destruct H as [H|H]; [rewrite (prefix_qvar s E) in H; discriminate|]. now apply name_anon.
Qed.
Lemma type_ok : word_ok type_uri.
Proof. right. unfold name_ok. split; [discriminate|]. split; [reflexivity|]. split; cbn; intuition discriminate. Qed.

(** ** One triple *)
Lemma reads_heads p ts xs : name_ok p -> neg_char p = false -> fold_right and True (map (legalT []) ts) -> Forall2 inT ts xs ->
  reads [] (Sl (uris p :: xs)) (KAtom p ts).
Proof.
  intros N G L Fi.
  destruct (calm_conn (Sym TUri p)) as (C1 & C2 & C3); [now apply name_calm|].
  intros fv.
  destruct (each_good [] ts _ (terms_read [] ts _ L Fi) 1 fv ltac:(lia)) as (us & fv' & R & O & V).
  exists (Sl (Sa (Sym TAnon p) :: us)), fv'. split; [|split; [|exact V]].
  - eapply runs_S with (h := fun n => term n true 0 [] (Sl (uris p :: xs)) fv).
    + intros n. apply aux_term; try assumption. eapply outs_quiet; eassumption.
    + eapply runs_S.
      * intros n. apply term_generic.
        -- eapply terms_first_quiet; eassumption.
        -- reflexivity.
        -- apply N.
        -- intros _. split; [exact G|]. cbn [astr]. intros I. apply name_calm in N as [_ N]. apply N. cbn in *. intuition (subst; auto 40).
        -- cbn [astr]. intros I. apply name_calm in N as [_ N]. apply N. cbn in *. intuition (subst; auto 40).
      * eapply runs_bind with (a := (Sa (Sym TAnon p) :: us, fv')); [|apply runs_done].
        apply each_head; [apply tatom_calm; [exact N|intros []|left; reflexivity]|exact R].
  - apply R_atom; try assumption; [intros []|left; reflexivity].
Qed.
Lemma arc_ok : name_ok "$arc".
Proof. unfold name_ok. split; [discriminate|]. split; [reflexivity|]. split; cbn; intuition discriminate. Qed.

(** ** Conjunctions *)
Lemma reads_pair c x y k l : c = CAnd \/ c = COr -> flike x -> flike y -> reads [] x k -> reads [] y l ->
  reads [] (Sl [Sa (Con c); x; y]) (KBin c k l).
Proof.
  intros C Fx Fy Rx Ry fv.
  destruct (Rx fv) as (p & f1 & A1 & B1 & D1). destruct (Ry f1) as (q & f2 & A2 & B2 & D2).
  exists (Sl [Sa (Con c); p; q]), f2.
  pose proof (flike_quiet x Fx) as (Qx1 & Qx2 & Qx3 & Qx4 & _). pose proof (flike_quiet y Fy) as (Qy1 & Qy2 & Qy3 & Qy4 & _).
  assert (Cc : In (astr (Con c)) connectives) by (destruct C as [->| ->]; cbn; tauto).
  destruct (flike_elem (Con c) x Fx Cc) as (Ex1 & Ex2 & Ex3 & Ex4). destruct (flike_elem (Con c) y Fy Cc) as (Ey1 & Ey2 & Ey3 & Ey4).
  split; [|split].
  - eapply runs_S with (h := fun n =>
      '(r, fv') <- unflatten (fun y f => aux n [] y f) (Con c) (Con c) (negb (negtype (astr (Con c)))) (String.eqb (astr (Con c)) "<=")
        (rev [Sa (Con c); x; y]) fv ;;
      match r with Some y => Done (y, fv') | None => Odd end).
    + intros n. apply (aux_chain n [] (Sa (Con c)) [x; y] fv (Con c) c).
      * cbn [list_logconn]. replace (is_connective (Sa (Con c))) with true by (destruct C as [->| ->]; reflexivity).
        destruct x as [a|lx]; [rewrite Qx4|]; (destruct y as [b|ly]; [rewrite Qy4|]); reflexivity.
      * discriminate.
      * destruct C as [->| ->]; reflexivity.
      * destruct C as [->| ->]; reflexivity.
      * destruct C as [->| ->]; reflexivity.
      * destruct C as [->| ->]; reflexivity.
      * destruct C as [->| ->]; reflexivity.
      * split; [exact Qx2|exact Qx3].
      * destruct C as [->| ->]; reflexivity.
    + cbn [rev app].
      destruct A1 as [n1 A1]. destruct A2 as [n2 A2]. exists (S (S (n1 + n2))). intros n L.
      assert (Ac : forall fv0, aux n [] (Sa (Con c)) fv0 = Done (Sa (Con c), fv0)).
      { intros fv0. destruct n as [|[|n]]; [lia|lia|]. cbn [aux is_uri andb term]. apply tatom_conn. constructor. }
      cbn [unflatten is_uri andb].
      rewrite Ex3, Ey3, Ex2, Ey2, Ex4, Ey4. unfold equal_atoms at 1. cbn [is_uri andb].
      rewrite Ac. cbn [bind]. rewrite (A1 n ltac:(lia)). cbn [bind].
      replace (negb (negtype (astr (Con c)))) with true by (destruct C as [->| ->]; reflexivity).
      replace (String.eqb (astr (Con c)) "<=") with false by (destruct C as [->| ->]; reflexivity).
      replace (really_equal (Sa (Con c)) (Con c)) with true by (destruct C as [->| ->]; reflexivity).
      rewrite (A2 n ltac:(lia)). cbn [bind].
      destruct (rep_elem [] k p (Con c) B1 Cc) as (_ & _ & _ & E). rewrite E. reflexivity.
  - apply R_bin; [destruct C as [->| ->]; cbn; tauto|exact B1|exact B2].
  - cbn [kvars]. eapply fvspec_app; eassumption.
Qed.

(** The part made so far says the triples *)
Definition good (ext : option sx) (ts : list triple) : Prop :=
  match ext with
  | None => ts = []
  | Some x => ts <> [] /\ flike x /\ exists k, reads [] x k /\ keq k (FAnd (map arc ts))
  end.
Lemma good_and x ts ext us : good (Some x) ts -> good ext us -> good (add_and (Some x) ext) (us ++ ts).
Proof.
  intros (N & F & k & R & K) G. destruct ext as [p|]; cbn [add_and].
  - destruct G as (N' & F' & l & R' & K'). split; [destruct us; [contradiction|discriminate]|].
    split; [right; eauto|]. exists (KBin CAnd k l). split; [apply reads_pair; auto|].
    destruct K as [K1 K2], K' as [L1 L2]. split.
    + intros D w v. cbn [ctruth]. rewrite (K1 D w v), (L1 D w v). cbn [truth].
      rewrite map_app, !and_all. split.
      * intros [A B] f I. apply in_app_iff in I as [I|I]; auto.
      * intros A. split; intros f I; apply A, in_app_iff; auto.
    + intros y. cbn [kvars]. rewrite in_app_iff, K2, L2. cbn [fvars]. rewrite map_app, flat_map_app, in_app_iff. tauto.
  - cbn in G. subst us. cbn. split; [exact N|]. split; [exact F|]. eauto.
Qed.
Lemma arc_good s k o id x : word_ok s -> word_ok k -> legalT [] o -> inT (word s) id -> inT o x ->
  good (Some (mkarc None id k x)) [(s, k, o)].
Proof.
  intros Hs Hk Ho Hi Hx. split; [discriminate|]. split; [right; unfold mkarc; eauto|].
  exists (KAtom "$arc" [word s; word k; o]). split.
  - unfold mkarc. apply reads_heads; [apply arc_ok|reflexivity| |].
    + cbn [map fold_right]. split; [now apply ok_word|]. split; [now apply ok_word|]. split; [exact Ho|exact Logic.I].
    + constructor; [exact Hi|]. constructor; [now apply uri_word|]. constructor; [exact Hx|constructor].
  - split.
    + intros D w v. cbn. tauto.
    + intros y. cbn [kvars fvars map flat_map arc]. rewrite !app_nil_r. reflexivity.
Qed.
Lemma add_arc ext ts s k o id x : good ext ts -> word_ok s -> word_ok k -> legalT [] o -> inT (word s) id -> inT o x ->
  good (add_and (Some (mkarc None id k x)) ext) (ts ++ [(s, k, o)]).
Proof. intros G Hs Hk Ho Hi Hx. apply good_and; [|exact G]. now apply arc_good. Qed.
Lemma rep_good k p ts : rep [] k p -> keq k (FAnd (map arc ts)) -> ts <> [] -> good (Some p) ts.
Proof.
  intros R K N. split; [exact N|]. split; [exact (rep_shape _ _ _ R)|]. exists k. split; [|exact K].
  apply rep_reads; [exact R|constructor].
Qed.

(** ** Lists *)
Scheme elem_ind2 := Induction for elem_term Sort Prop with list_ind2 := Induction for list_term Sort Prop.
Combined Scheme list_mut from elem_ind2, list_ind2.
Definition plains : list jv -> option (list json) :=
  fix go (l : list jv) : option (list json) :=
    match l with
    | [] => Some []
    | x :: r => match plainv x, go r with Some a, Some b => Some (a :: b) | _, _ => None end
    end.
Lemma plainv_arr l : plainv (NArr l) = match plains l with Some js => Some (JArr js) | None => None end.
Proof. reflexivity. Qed.
Definition unit_of (y : sx) : sx := match y with Sa _ => y | Sl _ => mklist y end.
Definition lists (l : list sx) : sx := fold_right (fun y r => Sl [uris "$list"; unit_of y; r]) (uris "$nil") l.
Lemma nil_ok : name_ok "$nil".
Proof. unfold name_ok. split; [discriminate|]. split; [reflexivity|]. split; cbn; intuition discriminate. Qed.
Lemma list_ok : name_ok "$list".
Proof. unfold name_ok. split; [discriminate|]. split; [reflexivity|]. split; cbn; intuition discriminate. Qed.
Lemma list_terms :
  (forall v t, elem_term v t -> legalT [] t /\ exists j, plainv v = Some j /\ inT t (unit_of (raw j))) /\
  (forall l t, list_term l t -> legalT [] t /\ exists js, plains l = Some js /\ inT t (lists (map raw js))).
Proof.
  apply list_mut.
  - intros z H. split; [exact H|]. exists (JInt z). split; [reflexivity|]. apply IT_num.
  - intros s H. split; [now apply ok_word|]. exists (JStr s). split; [reflexivity|]. now apply uri_word.
  - intros l t _ (L & js & P & T). split; [exact L|]. exists (JArr js). split; [rewrite plainv_arr, P; reflexivity|].
    destruct js as [|j js]; exact T.
  - split; [split; [apply nil_ok|tauto]|]. exists []. split; [reflexivity|]. apply IT_cst. left. reflexivity.
  - intros v l t r _ (L & j & P & T) _ (L' & js & P' & T'). split.
    + cbn. split; [left; apply list_ok|]. split; [tauto|]. split; [exact L|]. split; [exact L'|exact Logic.I].
    + exists (j :: js). split; [cbn [plains]; rewrite P; fold plains; rewrite P'; reflexivity|].
      cbn [map lists fold_right]. apply IT_app; [left; reflexivity|]. constructor; [exact T|]. constructor; [exact T'|constructor].
Qed.
Lemma list_value_ok l t : list_term l t -> legalT [] t /\ exists x, list_value (NArr l) = Done x /\ inT t x.
Proof.
  intros H. destruct (proj2 list_terms l t H) as (L & js & P & T). split; [exact L|].
  unfold list_value. rewrite plainv_arr, P. destruct js as [|j js]; eexists; (split; [reflexivity|exact T]).
Qed.

(** ** Keys *)
Lemma key_plain k : key_ok k -> k <> "" /\ special_key k = false /\ ~ In k keywords.
Proof.
  intros [W K]. pose proof (word_ne k W) as N. apply String.eqb_neq in N. split; [exact N|]. split; [|exact K].
  unfold special_key. apply mems_out. intros [H|H]; [congruence|]. apply K. unfold keywords. cbn in *. tauto.
Qed.
Lemma get_none s kvs ns ts key : object_says s kvs ns ts -> In key keywords -> ~ In key ["@id"; "@name"; "@type"] ->
  get key kvs = Done None.
Proof.
  intros H I J. induction H as [s|s r ns ts _ _ IH|s nm r ns ts _ IH|s v r ns ms ts us _ _ IH|s k v r ns ms ts us K _ _ IH]; cbn [get].
  - reflexivity.
  - rewrite (eqb_out "@id" key) by (intros <-; apply J; cbn; auto). exact IH.
  - rewrite (eqb_out "@name" key) by (intros <-; apply J; cbn; auto). exact IH.
  - rewrite (eqb_out "@type" key) by (intros <-; apply J; cbn; auto). exact IH.
  - destruct (key_plain k K) as (N & _ & K'). rewrite (eqb_out k "" N), (eqb_out k key) by (intros ->; contradiction). exact IH.
Qed.
Lemma get_id s kvs ns ts : object_says s kvs ns ts ->
  (In "@id" (map fst kvs) -> get "@id" kvs = Done (Some (NStr s)) /\ word_ok s) /\ (~ In "@id" (map fst kvs) -> get "@id" kvs = Done None).
Proof.
  intros H. induction H as [s|s r ns ts W _ IH|s nm r ns ts _ IH|s v r ns ms ts us _ _ IH|s k v r ns ms ts us K _ _ IH]; cbn [get map fst In].
  - split; [tauto|reflexivity].
  - split; [intros _; split; [reflexivity|exact W]|]. tauto.
  - destruct IH as [A B]. split; intros X.
    + destruct X as [X|X]; [discriminate|]. exact (A X).
    + apply B. tauto.
  - destruct IH as [A B]. split; intros X.
    + destruct X as [X|X]; [discriminate|]. exact (A X).
    + apply B. tauto.
  - destruct (key_plain k K) as (N & _ & K'). destruct IH as [A B].
    rewrite (eqb_out k "" N), (eqb_out k "@id") by (intros ->; apply K'; cbn; auto). split; intros X.
    + destruct X as [X|X]; [subst k; exfalso; apply K'; cbn; auto|]. exact (A X).
    + apply B. tauto.
Qed.
Lemma get_name s kvs ns ts : object_says s kvs ns ts -> exists o, get "@name" kvs = Done o.
Proof.
  intros H. induction H as [s|s r ns ts _ _ IH|s nm r ns ts _ IH|s v r ns ms ts us _ _ IH|s k v r ns ms ts us K _ _ IH]; cbn [get].
  - eexists. reflexivity.
  - exact IH.
  - eexists. reflexivity.
  - exact IH.
  - destruct (key_plain k K) as (N & _ & K'). rewrite (eqb_out k "" N), (eqb_out k "@name") by (intros ->; apply K'; cbn; auto 10). exact IH.
Qed.

(** ** The names that are generated *)
Definition names (a n : nat) : list string := map crtd (seq a n).
Lemma names_app a n m : names a (n + m) = names a n ++ names (a + n) m.
Proof. unfold names. rewrite seq_app, map_app. reflexivity. Qed.
Lemma names_len a n : List.length (names a n) = n.
Proof. unfold names. rewrite map_length, seq_length. reflexivity. Qed.

(** wr_process_json_formula below the top *)
Definition nest (n : nat) (gid : option sx) (v : jv) (seed : nat) : res (option sx * nat) :=
  match v with
  | NObj kvs =>
      _ <- get "@question" kvs ;;
      '(c, seed) <- struct n false gid kvs seed ;;
      match c with
      | None => Done (None, seed)
      | Some c => '(o, seed) <- conv n false gid c seed ;;
                  Done (match o with Some (x, _) => Some x | None => None end, seed)
      end
  | NNull => Err
  | _ => match plainv v with
         | None => Odd
         | Some j => '(x, _) <- aux n [] (raw j) [] ;; Done (Some x, seed)
         end
  end.
Lemma struct_S n top gid kvs seed : struct (S n) top gid kvs seed =
  match kvs with
  | [] => Done (None, seed)
  | _ =>
      oid <- get "@id" kvs ;;
      _ <- get "@name" kvs ;;
      role <- get "@role" kvs ;;
      graph <- get "@graph" kvs ;;
      logic <- get "@logic" kvs ;;
      question <- get "@question" kvs ;;
      if (is_some role || is_some question) && negb top then Err else
      ctxt <- get "@context" kvs ;;
      if is_some ctxt then Odd else
      id <- match oid with None => Done None | Some v => i <- given v ;; Done (Some i) end ;;
      let named := is_some oid || existsb (fun p => negb (special_key (fst p))) kvs in
      '(_, ext, seed) <- entries (nest n) gid named id None seed kvs ;;
      lg <- logic_of logic ;;
      match ext with
      | None => Done (lg, seed)
      | Some x =>
          match lg with
          | None => Done (Some (CSx x), seed)
          | Some (CObj _) => Odd
          | Some (CSx l) =>
              a <- asks role ;;
              Done (Some (CSx (if a : bool then neg_or l x else Sl [Sa (Con CAnd); l; x])), seed)
          end
      end
  end.
Proof. reflexivity. Qed.
Definition values (nst : option sx -> jv -> nat -> res (option sx * nat)) gid id key :=
  fix loop (l : list jv) (ext : option sx) (seed : nat) : res (option sx * nat) :=
    match l with
    | [] => Done (ext, seed)
    | x :: r => '(ext, seed) <- key_atoms nst gid id key x ext seed ;; loop r ext seed
    end.

Scheme value_ind3 := Induction for value_says Sort Prop
  with values_ind3 := Induction for values_say Sort Prop
  with object_ind3 := Induction for object_says Sort Prop.
Combined Scheme says_mut from value_ind3, values_ind3, object_ind3.

Definition Pv (s k : string) (v : jv) (ns0 : list string) (ts0 : list triple) : Prop :=
  word_ok s -> word_ok k -> forall s' id ext us seed, word_ok s' -> inT (word s') id -> good ext us ->
  exists n ts ext', value_says s' k v (names seed n) ts /\ n = List.length ns0 /\ List.length ts = List.length ts0 /\
    runs (fun f => key_atoms (nest f) None id k v ext seed) (ext', seed + n) /\ good ext' (us ++ ts).
Definition Pl (s k : string) (l : list jv) (ns0 : list string) (ts0 : list triple) : Prop :=
  word_ok s -> word_ok k -> forall s' id ext us seed, word_ok s' -> inT (word s') id -> good ext us ->
  exists n ts ext', values_say s' k l (names seed n) ts /\ n = List.length ns0 /\ List.length ts = List.length ts0 /\
    runs (fun f => values (nest f) None id k l ext seed) (ext', seed + n) /\ good ext' (us ++ ts).
(** the thing may be renamed when it has no "@id" *)
Definition Po (s : string) (kvs : list (string * jv)) (ns0 : list string) (ts0 : list triple) : Prop :=
  word_ok s -> forall s' id ext us seed named, word_ok s' -> (In "@id" (map fst kvs) -> s' = s) -> inT (word s') id -> good ext us ->
  exists n ts ext', object_says s' kvs (names seed n) ts /\ n = List.length ns0 /\ List.length ts = List.length ts0 /\
    runs (fun f => entries (nest f) None named (Some id) ext seed kvs) (Some id, ext', seed + n) /\ good ext' (us ++ ts).

Lemma runs_1 {A} (g : nat -> res A) a : (forall n, g n = Done a) -> runs g a.
Proof. intros H. exists 0. intros n _. apply H. Qed.

(** An object below the top, from its entries *)
Lemma nest_runs s kvs ns0 ts0 : object_says s kvs ns0 ts0 -> Po s kvs ns0 ts0 -> In "@id" (map fst kvs) -> forall seed,
  exists n ts r, object_says s kvs (names seed n) ts /\ n = List.length ns0 /\ List.length ts = List.length ts0 /\
    runs (fun f => nest f None (NObj kvs) seed) (r, seed + n) /\ good r ts.
Proof.
  intros H P I seed. destruct (proj1 (get_id _ _ _ _ H) I) as [Gi Ws].
  destruct (P Ws s (mkid s) None [] seed true Ws (fun _ => eq_refl) (mkid_word s Ws) eq_refl) as (n & ts & ext & O & En & Et & R & G).
  cbn [app] in G. destruct (get_name _ _ _ _ H) as (nm & Gn).
  assert (K : forall key, In key ["@role"; "@graph"; "@logic"; "@question"; "@context"] -> get key kvs = Done None).
  { intros key J. eapply get_none; [exact H| |]; cbn in *; intuition (subst; try discriminate; auto 20). }
  assert (S1 : runs (fun f => struct f false None kvs seed) (match ext with Some x => Some (CSx x) | None => None end, seed + n)).
  { eapply runs_S; [intros f; apply struct_S|]. destruct kvs as [|kv kvs]; [destruct I|].
    rewrite Gi, Gn. cbn [bind]. rewrite !K by (cbn; auto 10). cbn [bind is_some orb andb given].
    rewrite (word_ne s Ws). cbn [bind]. eapply runs_bind; [exact R|]. cbn beta iota.
    destruct ext; cbn [logic_of bind]; apply runs_done. }
  destruct ext as [x|].
  - destruct G as (N & F & k & Rk & Kk). destruct (Rk []) as (p & fv & A & B & _).
    exists n, ts, (Some p). split; [exact O|]. split; [exact En|]. split; [exact Et|]. split; [|eapply rep_good; eassumption].
    cbn [nest]. rewrite K by (cbn; auto 10). cbn [bind]. eapply runs_bind; [exact S1|]. cbn beta iota.
    eapply runs_bind with (a := (Some (p, fv), seed + n)); [|apply runs_done].
    eapply runs_S; [intros f; reflexivity|]. eapply runs_bind; [exact A|apply runs_done].
  - exists n, ts, None. split; [exact O|]. split; [exact En|]. split; [exact Et|]. split; [|exact G].
    cbn [nest]. rewrite K by (cbn; auto 10). cbn [bind]. eapply runs_bind; [exact S1|apply runs_done].
Qed.

Lemma key_atoms_arr nst gid id key x l ext seed : key_atoms nst gid id key (NArr (x :: l)) ext seed = values nst gid id key (x :: l) ext seed.
Proof. reflexivity. Qed.
Lemma key_atoms_obj nst gid id key kv kvs ext seed : key_atoms nst gid id key (NObj (kv :: kvs)) ext seed =
  let kvs := kv :: kvs in let simple x := Done (add_and (Some (mkarc gid id key x)) ext, seed) in
      l1 <- get "@list" kvs ;;
      l <- match l1 with Some _ => Done l1 | None => get "@set" kvs end ;;
      val <- get "@value" kvs ;;
      mv <- at_value val ;;
      match l with
      | Some lv => x <- list_value lv ;; simple x
      | None =>
          match mv with
          | Some x => simple x
          | None =>
              oid <- get "@id" kvs ;;
              '(newid, kvs', seed) <-
                 match oid with
                 | Some i => x <- given i ;; Done (x, kvs, seed)
                 | None => Done (made seed, ("@id", NStr (crtd seed)) :: kvs, S seed)
                 end ;;
              let res1 := add_and (Some (mkarc gid id key newid)) ext in
              '(r, seed) <- nst gid (NObj kvs') seed ;;
              Done (match r with Some _ => add_and r res1 | None => res1 end, seed)
          end
      end.
Proof. reflexivity. Qed.

Lemma good_opt r ts ext us : good r ts -> good ext us ->
  good (match r with Some _ => add_and r ext | None => ext end) (us ++ ts).
Proof.
  intros R G. destruct r as [x|]; [now apply good_and|]. cbn in R. subst ts. rewrite app_nil_r. exact G.
Qed.

Lemma says_runs :
  (forall s k v ns ts, value_says s k v ns ts -> Pv s k v ns ts) /\
  (forall s k l ns ts, values_say s k l ns ts -> Pl s k l ns ts) /\
  (forall s kvs ns ts, object_says s kvs ns ts -> Po s kvs ns ts).
Proof.
  apply says_mut; unfold Pv, Pl; intros.
  - (* null *) exists 0, [], ext. split; [constructor|]. split; [reflexivity|]. split; [reflexivity|].
    split; [rewrite Nat.add_0_r; apply runs_done|]. rewrite app_nil_r. assumption.
  - (* number *) eexists 0, _, _. split; [apply V_num; assumption|]. split; [reflexivity|]. split; [reflexivity|].
    split; [rewrite Nat.add_0_r; apply runs_done|]. apply add_arc; try assumption. apply IT_num.
  - (* string *) eexists 0, _, _. split; [apply V_str; assumption|]. split; [reflexivity|]. split; [reflexivity|].
    split.
    + rewrite Nat.add_0_r. apply runs_1. intros f. cbn [key_atoms]. rewrite (word_ne t) by assumption. reflexivity.
    + apply add_arc; try assumption; [now apply ok_word|now apply str_word].
  - (* array *) destruct l as [|x l]; [contradiction|].
    destruct (H H0 H1 s' id ext us seed H2 H3 H4) as (q & ts' & ext' & A & B & C & D & E).
    exists q, ts', ext'. split; [apply V_arr; [discriminate|exact A]|]. split; [exact B|]. split; [exact C|]. split; [exact D|exact E].
  - (* @list *) destruct (list_value_ok l t l0) as (L & x & X & T).
    eexists 0, _, _. split; [apply V_list; exact l0|]. split; [reflexivity|]. split; [reflexivity|].
    split.
    + rewrite Nat.add_0_r. apply runs_1. intros f. rewrite key_atoms_obj. cbn [get bind at_value]. cbn [String.eqb Ascii.eqb Bool.eqb bind at_value].
      rewrite X. cbn [bind]. reflexivity.
    + apply add_arc; assumption.
  - (* @value, number *) eexists 0, _, _. split; [apply V_valn; assumption|]. split; [reflexivity|]. split; [reflexivity|].
    split; [rewrite Nat.add_0_r; apply runs_1; reflexivity|]. apply add_arc; try assumption. apply IT_num.
  - (* @value, string *) eexists 0, _, _. split; [apply V_vals; assumption|]. split; [reflexivity|]. split; [reflexivity|].
    split; [rewrite Nat.add_0_r; apply runs_1; reflexivity|].
    apply add_arc; try assumption; [cbn; split; [assumption|tauto]|now apply name_anon].
  - (* object with @id *)
    assert (I : In "@id" (map fst kvs)) by (apply (in_map fst) in i0; exact i0).
    destruct (proj1 (get_id _ _ _ _ o) I) as [Gi Wi].
    destruct (nest_runs i kvs ns ts o H I seed) as (n & ts' & r & A & B & C & D & E).
    exists n, ((s', k, word i) :: ts'), (match r with Some _ => add_and r (add_and (Some (mkarc None id k (mkid i))) ext) | None => add_and (Some (mkarc None id k (mkid i))) ext end).
    split; [now apply V_ref|]. split; [exact B|]. split; [cbn; lia|]. split.
    + destruct kvs as [|kv kvs]; [destruct I|].
      eapply runs_ext; [intros f; apply key_atoms_obj|]. cbn zeta.
      rewrite !(get_none _ _ _ _ "@list" o), !(get_none _ _ _ _ "@set" o), !(get_none _ _ _ _ "@value" o) by (cbn; intuition discriminate).
      cbn [bind at_value]. rewrite Gi. cbn [bind given]. rewrite (word_ne i Wi). cbn [bind].
      eapply runs_bind; [exact D|apply runs_done].
    + replace (us ++ (s', k, word i) :: ts') with ((us ++ [(s', k, word i)]) ++ ts') by (rewrite <- app_assoc; reflexivity).
      apply good_opt; [exact E|]. apply add_arc; try assumption; [now apply ok_word|now apply mkid_word].
  - (* object without @id *)
    assert (O1 : object_says x kvs ns ts) by assumption.
    assert (Wx : word_ok x) by (right; assumption). pose proof (crtd_ok seed) as Cs. assert (Wc : word_ok (crtd seed)) by (right; exact Cs).
    assert (O2 : exists ns1 ts1, object_says (crtd seed) kvs ns1 ts1 /\ Po (crtd seed) kvs ns1 ts1 /\ List.length ns1 = List.length ns /\ List.length ts1 = List.length ts).
    { destruct (H Wx (crtd seed) (made seed) None [] 0 true Wc ltac:(intros J; contradiction) (made_word seed) eq_refl) as (q & ts1 & e1 & A & B & C & _ & _).
      exists (names 0 q), ts1. split; [exact A|]. split; [|split; [rewrite names_len; exact B|exact C]].
      unfold Po. intros _ s'' id'' ext'' us'' seed'' named'' W'' J'' T'' G''.
      destruct (H Wx s'' id'' ext'' us'' seed'' named'' W'' ltac:(intros J; contradiction) T'' G'') as (n2 & ts2 & e2 & A2 & B2 & C2 & D2 & E2).
      exists n2, ts2, e2. rewrite names_len. split; [exact A2|]. split; [lia|]. split; [lia|]. split; [exact D2|exact E2]. }
    destruct O2 as (ns1 & ts1 & Oc & Pc & Ln & Lt).
    assert (Od : object_says (crtd seed) (("@id", NStr (crtd seed)) :: kvs) ns1 ts1) by (apply O_id; assumption).
    assert (Pd : Po (crtd seed) (("@id", NStr (crtd seed)) :: kvs) ns1 ts1).
    { unfold Po. intros _ s'' id'' ext'' us'' seed'' named'' W'' J'' T'' G''.
      assert (E : s'' = crtd seed) by (apply J''; left; reflexivity). subst s''.
      destruct (Pc Wc (crtd seed) id'' ext'' us'' seed'' named'' Wc (fun _ => eq_refl) T'' G'') as (n2 & ts2 & e2 & A2 & B2 & C2 & D2 & E2).
      exists n2, ts2, e2. split; [apply O_id; assumption|]. split; [exact B2|]. split; [exact C2|]. split; [|exact E2].
      eapply runs_ext; [intros f; cbn [entries]; reflexivity|]. exact D2. }
    destruct (nest_runs _ _ _ _ Od Pd (or_introl eq_refl) (S seed)) as (m & ts' & r & A & B & C & D & E).
    exists (S m), ((s', k, word (crtd seed)) :: ts'),
      (match r with Some _ => add_and r (add_and (Some (mkarc None id k (made seed))) ext) | None => add_and (Some (mkarc None id k (made seed))) ext end).
    split; [|split; [cbn; lia|split; [cbn; lia|split]]].
    + change (names seed (S m)) with (crtd seed :: names (S seed) m). apply V_anon; try assumption.
      inversion A; subst; [assumption|]. exfalso.
      match goal with J : key_ok "@id" |- _ => destruct J as [_ J]; apply J; left; reflexivity end.
    + destruct kvs as [|kv kvs]; [contradiction|].
      eapply runs_ext; [intros f; apply key_atoms_obj|]. cbn zeta.
      rewrite !(get_none _ _ _ _ "@list" O1), !(get_none _ _ _ _ "@set" O1), !(get_none _ _ _ _ "@value" O1) by (cbn; intuition discriminate).
      cbn [bind at_value]. rewrite (proj2 (get_id _ _ _ _ O1)) by assumption. cbn [bind].
      eapply runs_bind; [exact D|]. cbn beta iota. rewrite Nat.add_succ_r. apply runs_done.
    + replace (us ++ (s', k, word (crtd seed)) :: ts') with ((us ++ [(s', k, word (crtd seed))]) ++ ts') by (rewrite <- app_assoc; reflexivity).
      apply good_opt; [exact E|]. apply add_arc; try assumption; [now apply ok_word|apply made_word].
  - (* values *) exists 0, [], ext. split; [constructor|]. split; [reflexivity|]. split; [reflexivity|].
    split; [rewrite Nat.add_0_r; apply runs_done|]. rewrite app_nil_r. assumption.
  - destruct (H H1 H2 s' id ext us0 seed H3 H4 H5) as (n & t1 & e1 & A & B & C & D & E).
    destruct (H0 H1 H2 s' id e1 (us0 ++ t1) (seed + n) H3 H4 E) as (m & t2 & e2 & A2 & B2 & C2 & D2 & E2).
    exists (n + m), (t1 ++ t2), e2. rewrite names_app, app_assoc, Nat.add_assoc, !app_length.
    split; [now apply VS_cons|]. split; [lia|]. split; [lia|]. split; [|exact E2].
    cbn [values]. eapply runs_bind; [exact D|]. exact D2.
  - (* entries *) unfold Po. intros. exists 0, [], ext. split; [constructor|]. split; [reflexivity|]. split; [reflexivity|].
    split; [rewrite Nat.add_0_r; apply runs_done|]. rewrite app_nil_r. assumption.
  - unfold Po. intros. assert (s' = s) by (apply H2; left; reflexivity). subst s'.
    destruct (H H0 s id ext us seed named H1 (fun _ => eq_refl) H3 H4) as (n & t1 & e1 & A & B & C & D & E).
    exists n, t1, e1. split; [now apply O_id|]. split; [exact B|]. split; [exact C|]. split; [exact D|exact E].
  - unfold Po. intros.
    destruct (H H0 s' id ext us seed named H1 (fun J => H2 (or_intror J)) H3 H4) as (n & t1 & e1 & A & B & C & D & E).
    exists n, t1, e1. split; [now apply O_name|]. split; [exact B|]. split; [exact C|]. split; [exact D|exact E].
  - unfold Po. intros.
    destruct (H H1 type_ok s' id ext us0 seed H2 H4 H5) as (n & t1 & e1 & A & B & C & D & E).
    destruct (H0 H1 s' id e1 (us0 ++ t1) (seed + n) named H2 (fun J => H3 (or_intror J)) H4 E) as (m & t2 & e2 & A2 & B2 & C2 & D2 & E2).
    exists (n + m), (t1 ++ t2), e2. rewrite names_app, app_assoc, Nat.add_assoc, !app_length.
    split; [now apply O_type|]. split; [lia|]. split; [lia|]. split; [|exact E2].
    eapply runs_ext; [intros f; cbn [entries]; reflexivity|]. eapply runs_bind; [exact D|]. exact D2.
  - unfold Po. intros. destruct (key_plain k k0) as (N & Sp & _).
    destruct (H H1 (proj1 k0) s' id ext us0 seed H2 H4 H5) as (n & t1 & e1 & A & B & C & D & E).
    destruct (H0 H1 s' id e1 (us0 ++ t1) (seed + n) named H2 (fun J => H3 (or_intror J)) H4 E) as (m & t2 & e2 & A2 & B2 & C2 & D2 & E2).
    exists (n + m), (t1 ++ t2), e2. rewrite names_app, app_assoc, Nat.add_assoc, !app_length.
    split; [now apply O_key|]. split; [lia|]. split; [lia|]. split; [|exact E2].
    eapply runs_ext; [intros f; cbn [entries]; rewrite Sp; cbn [negb]; reflexivity|]. eapply runs_bind; [exact D|]. exact D2.
Qed.
