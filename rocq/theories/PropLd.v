(** C70: a JSON object says the triples written in it. *)
From Coq Require Import ZArith Lia Arith String Ascii Bool List.
From Verif Require Import ClausModel ClausSpec JsModel JsSpec JsBase JsCore JsRead JsMain LdModel LdSpec LdProof LdTop.
Import ListNotations.
Open Scope string_scope.
Open Scope list_scope.

(** A file of objects, nested in any way: each object is read as the conjunction of its triples, the
    names invented for things without "@id" are all different, in the whole file, and none of them is
    written in the file if no name in it begins with _:crtd_.  So the file has the models that the
    triples have.  Missing: "@context", "@graph", "@set", truth values as values, objects inside the
    arrays of a formula, objects that say nothing, and the names and values refuted below. *)
Theorem C70_file_partial : forall objs, Forall readable objs -> exists ps outs m,
  (exists n0, forall n, n0 <= n -> read_objs n objs 0 = Done (outs, m)) /\
  Forall2 (fun kvs p => says kvs (fst p) (snd p)) objs ps /\
  NoDup (concat (map fst ps)) /\
  (Forall (fun kvs => Forall (fun s => String.prefix "_:crtd_" s = false) (written (NObj kvs))) objs ->
   forall x kvs, In x (concat (map fst ps)) -> In kvs objs -> ~ In x (written (NObj kvs))) /\
  (forall D (J : stint D), inhabited D ->
     (Forall (sem (int_of J) none) outs <-> Forall (fun p => true_in (world_of J) (FAnd (map arc (snd p)))) ps)) /\
  (forall D, inhabited D -> ((exists J : stint D, Forall (sem (int_of J) none) outs) <->
     (exists w : world D, respects w /\ Forall (fun p => true_in w (FAnd (map arc (snd p)))) ps))).
Proof.
  intros objs R. destruct (file_reads objs R 0) as (n & ps & outs & Rd & Cn & Sn & Ms). exists ps, outs, n.
  assert (M : forall D (J : stint D), inhabited D ->
     (Forall (sem (int_of J) none) outs <-> Forall (fun p => true_in (world_of J) (FAnd (map arc (snd p)))) ps)).
  { intros D J I. apply (forall2_iff _ _ _ _ _ (Ms D J I)). intros x y H. exact H. }
  split; [exact Rd|]. split; [exact Sn|]. split; [rewrite Cn; apply names_nodup|]. split.
  { intros F x kvs I K W. rewrite Cn in I. apply names_prefix in I. rewrite Forall_forall in F. specialize (F kvs K).
    rewrite Forall_forall in F. specialize (F x W). congruence. }
  split; [exact M|]. intros D I. split.
  - intros (J & X). exists (world_of J). split; [|apply (M D J I), X]. unfold respects.
    repeat (apply Forall_cons; [split; reflexivity|]). apply Forall_nil.
  - intros (w & Rw & X). exists (world_back w). apply (M D _ I).
    eapply Forall_impl; [|exact X]. intros p Y v. apply (back_truth w Rw (fsize (FAnd (map arc (snd p))))); [lia|]. apply Y.
Qed.

(** One object, at any point of the file *)
Theorem C70_object_partial : forall kvs, readable kvs -> forall seed, exists ns ts out m,
  says kvs ns ts /\ NoDup ns /\ m = seed + List.length ns /\
  (exists n0, forall n, n0 <= n -> read_obj n kvs seed = Done (Some out, m)) /\
  forall D (J : stint D), inhabited D -> (sem (int_of J) none out <-> true_in (world_of J) (FAnd (map arc ts))).
Proof.
  intros kvs (ns0 & ts0 & H & N0) seed. destruct (plain_object kvs ns0 ts0 H N0 seed) as (n & ts & out & A & _ & R & M).
  exists (names seed n), ts, out, (seed + n). split; [exact A|]. split; [apply names_nodup|]. split; [rewrite names_len; reflexivity|].
  split; [exact R|exact M].
Qed.
(** With "@logic" the object says its triples and the formula *)
Theorem C70_logic_partial : forall kvs f j, readable kvs -> legal [] f -> spells f j -> forall seed, exists ns ts out m,
  says kvs ns ts /\
  (exists n0, forall n, n0 <= n -> read_obj n (("@logic", value_of j) :: kvs) seed = Done (Some out, m)) /\
  forall D (J : stint D), inhabited D -> (sem (int_of J) none out <-> true_in (world_of J) (FAnd (f :: map arc ts))).
Proof.
  intros kvs f j (ns0 & ts0 & H & N0) L S seed.
  destruct (logic_object kvs ns0 ts0 f j None RAx false H N0 L S eq_refl eq_refl seed) as (n & ts & out & A & _ & R & M).
  exists (names seed n), ts, out, (seed + n). split; [exact A|]. split; [exact R|exact M].
Qed.
(** With the role "conjecture" the triples are facts and the formula is to be proved from them, if the
    triples have no variables: what is read is true just where the triples do not imply the formula. *)
Theorem C70_conjecture_partial : forall kvs f j, readable kvs -> legal [] f -> spells f j -> forall seed, exists ns ts out m,
  says kvs ns ts /\
  (exists n0, forall n, n0 <= n ->
     read_obj n (("@role", NStr "conjecture") :: ("@logic", value_of j) :: kvs) seed = Done (Some out, m)) /\
  (fvars (FAnd (map arc ts)) = [] -> forall D (J : stint D), inhabited D ->
     (sem (int_of J) none out <-> ~ (true_in (world_of J) (FAnd (map arc ts)) -> true_in (world_of J) f))).
Proof.
  intros kvs f j (ns0 & ts0 & H & N0) L S seed.
  destruct (logic_object kvs ns0 ts0 f j (Some (NStr "conjecture")) RConj true H N0 L S eq_refl eq_refl seed) as (n & ts & out & A & B & R & M).
  exists (names seed n), ts, out, (seed + n). split; [exact A|]. split; [exact R|].
  intros V D J I. specialize (M D J I). cbn [means] in M. rewrite M. apply closed_or; [|exact I].
  intros v v' T. cbn [truth] in *. rewrite and_all in *. intros g Ig. specialize (T g Ig).
  assert (Vg : forall y, In y (fvars g) -> False).
  { intros y Iy. assert (Z : In y (fvars (FAnd (map arc ts)))) by (cbn [fvars]; apply in_flat_map; exists g; split; assumption).
    rewrite V in Z. exact Z. }
  apply in_map_iff in Ig as ([[s k] o] & <- & _). cbn [arc truth fvars] in *.
  rewrite (tvals_ext (world_of J) v' v); [exact T|]. intros y Iy. destruct (Vg y Iy).
Qed.
(** A question put as an object: the values for which its triples are true are answers *)
Theorem C70_question_partial : forall kvs, readable kvs -> forall seed, exists ns ts out m,
  says kvs ns ts /\
  (exists n0, forall n, n0 <= n -> read_obj n [("@question", NObj kvs)] seed = Done (Some out, m)) /\
  forall D (J : stint D), inhabited D -> exists vs, (forall x, In x vs <-> In x (fvars (FAnd (map arc ts)))) /\
    (sem (int_of J) none out <->
     match vs with
     | [] => ~ true_in (world_of J) (FAnd (map arc ts))
     | _ => forall v, truth (world_of J) v (FAnd (map arc ts)) -> wp (world_of J) "$ans" (map v vs)
     end).
Proof.
  intros kvs (ns0 & ts0 & H & N0) seed. destruct (question_object kvs ns0 ts0 H N0 seed) as (n & ts & out & A & _ & R & M).
  exists (names seed n), ts, out, (seed + n). split; [exact A|]. split; [exact R|exact M].
Qed.
(** An object with nothing but a formula and its role is read as the formula with that role (C59) *)
Theorem C70_formula : forall n j r s seed,
  In (r, s) [(RAx, "axiom"); (RAx, "assumption"); (RAx, "hypothesis"); (RConj, "conjecture");
             (RNegConj, "negated_conjecture"); (RQuest, "question")] ->
  let out := bind (read n r j) (fun x => Done (Some x, seed)) in
  read_obj (S n) [("@role", NStr s); ("@logic", value_of j)] seed = out /\
  read_obj (S n) [("@logic", value_of j); ("@role", NStr s)] seed = out /\
  (r = RAx -> read_obj (S n) [("@logic", value_of j)] seed = out) /\
  (r = RQuest -> read_obj (S n) [("@question", value_of j)] seed = out).
Proof.
  intros n j r s seed I out.
  assert (E : forall kvs ro, kvs <> [] -> get "@role" kvs = Done ro -> role_of ro = Done r ->
    (forall key, In key ["@id"; "@name"; "@graph"; "@question"; "@context"] -> get key kvs = Done None) ->
    get "@logic" kvs = Done (Some (value_of j)) ->
    (forall nst gid named ext sd, entries nst gid named None ext sd kvs = Done (None, ext, sd)) ->
    '(c, seed) <- struct (S n) true None kvs seed ;;
    r <- get "@role" kvs ;;
    r <- role_of r ;;
    match c with
    | None => Done (None, seed)
    | Some c =>
        '(o, seed) <- conv (S n) true None c seed ;;
        Done (match o with Some (x, fv) => Some (finish r x fv) | None => None end, seed)
    end = out).
  { intros kvs ro N Gr Rr K Gl En. rewrite struct_S. destruct kvs as [|kv kvs]; [contradiction|].
    rewrite Gl, Gr, !K by (cbn; auto 10). cbn [bind is_some]. rewrite orb_false_r, andb_false_r, En. cbn [bind].
    rewrite logic_plain. cbn [bind]. rewrite Rr. cbn [bind]. cbn [conv]. unfold out, read.
    destruct (aux n [] (raw j) []) as [[x fv]| | | |]; reflexivity. }
  assert (Nq : forall key, In key ["@id"; "@name"; "@graph"; "@question"; "@context"] ->
    String.eqb "@role" key = false /\ String.eqb "@logic" key = false /\ String.eqb "@question" key = (String.eqb key "@question")).
  { intros key K. cbn in K. repeat (destruct K as [<-|K]; [repeat split; reflexivity|]). contradiction. }
  assert (G2 : forall (a b : jv) key, In key ["@id"; "@name"; "@graph"; "@question"; "@context"] ->
    get key [("@role", a); ("@logic", b)] = Done None /\ get key [("@logic", b); ("@role", a)] = Done None /\ get key [("@logic", b)] = Done None).
  { intros a b key K. destruct (Nq key K) as (X & Y & _). cbn [get]. change (String.eqb "@role" "") with false.
    change (String.eqb "@logic" "") with false. rewrite X, Y. repeat split; reflexivity. }
  assert (Rs : role_of (Some (NStr s)) = Done r).
  { cbn in I. repeat (destruct I as [I|I]; [injection I as <- <-; reflexivity|]). contradiction. }
  split; [|split; [|split]].
  - unfold read_obj. rewrite (proj1 (G2 _ _ "@question" ltac:(cbn; auto 10))). cbn [bind].
    apply (E _ (Some (NStr s))); [discriminate|reflexivity|exact Rs| |reflexivity|reflexivity]. intros key K. apply G2, K.
  - unfold read_obj. rewrite (proj1 (proj2 (G2 _ _ "@question" ltac:(cbn; auto 10)))). cbn [bind].
    apply (E _ (Some (NStr s))); [discriminate|reflexivity|exact Rs| |reflexivity|reflexivity]. intros key K. apply G2, K.
  - intros ->. unfold read_obj. rewrite (proj2 (proj2 (G2 NNull _ "@question" ltac:(cbn; auto 10)))). cbn [bind].
    apply (E _ None); [discriminate|reflexivity|reflexivity| |reflexivity|reflexivity]. intros key K. apply (G2 NNull _ key K).
  - intros ->. unfold read_obj. 
    change (get "@question" [("@question", value_of j)]) with (Done (Some (value_of j))).
    change (get "@logic" [("@question", value_of j)]) with (@Done (option jv) None).
    change (get "@role" [("@question", value_of j)]) with (@Done (option jv) None). cbn [bind is_some orb].
    change (requestion [("@question", value_of j)]) with [("@logic", value_of j)].
    apply (E _ (Some (NStr "question"))); [discriminate|reflexivity|reflexivity| |reflexivity|reflexivity]. intros key K. apply G2, K.
Qed.

(** ** Where the full statement fails *)
(** An empty string, as a value or as a key, is followed as a NULL pointer *)
Theorem C70_empty_string_refuted : forall n seed,
  read_obj (S n) [("@id", NStr "pete"); ("middlename", NStr "")] seed = Crash /\
  read_obj (S n) [("@id", NStr "pete"); ("", NStr "x")] seed = Crash.
Proof. intros n seed. split; reflexivity. Qed.
(** An array says its elements; the empty array says that the value is $nil, the empty list *)
Theorem C70_empty_array_refuted : forall n seed,
  read_obj (S (S (S (S n)))) [("@id", NStr "pete"); ("child", NArr [])] seed =
  read_obj (S (S (S (S n)))) [("@id", NStr "pete"); ("child", NStr "$nil")] seed /\
  read_obj (S (S (S (S n)))) [("@id", NStr "pete"); ("child", NArr [])] seed =
  read_obj (S (S (S (S n)))) [("@id", NStr "pete"); ("child", NObj [("@list", NArr [])])] seed /\
  read_obj (S (S (S (S n)))) [("@id", NStr "pete"); ("child", NArr [])] seed <> Done (None, seed).
Proof. intros n seed. split; [|split]; [reflexivity|reflexivity|]. cbn. discriminate. Qed.
(** A value "and" (or another operator) makes the triple a formula of its parts *)
Theorem C70_words_refuted : forall n seed,
  read_obj (S (S (S (S (S n))))) [("@id", NStr "gate1"); ("kind", NStr "and")] seed =
  Done (Some (Sl [Sa (Con CAnd); Sl [Sa (Con CAnd); Sa (Sym TAnon "$arc"); Sa (Sym TAnon "gate1")]; Sa (Sym TAnon "kind")]), seed).
Proof. reflexivity. Qed.
(** A name written in the file may be generated again: the two things become one *)
Theorem C70_collision_refuted : forall n,
  let t a k b := Sl [Sa (Sym TAnon "$arc"); Sa (Sym TAnon a); Sa (Sym TAnon k); Sa (Sym TAnon b)] in
  read_obj (S (S (S (S (S (S n)))))) [("@id", NStr "_:crtd_0"); ("child", NObj [("name", NStr "v")])] 0 =
  Done (Some (Sl [Sa (Con CAnd); t "_:crtd_0" "name" "v"; t "_:crtd_0" "child" "_:crtd_0"]), 1).
Proof. reflexivity. Qed.
(** The triples of "@graph" are triples of a named graph or not, by the order of the keys *)
Theorem C70_graph_order_refuted : forall n,
  let g := ("@graph", NArr [NObj [("@id", NStr "a"); ("p", NStr "v")]]) in
  let t := ("@type", NStr "belief") in
  let ty := Sl [Sa (Sym TAnon "$arc"); Sa (Sym TAnon "_:crtd_0"); Sa (Sym TAnon type_uri); Sa (Sym TAnon "belief")] in
  read_obj (S (S (S (S (S (S n)))))) [t; g] 0 =
  Done (Some (Sl [Sa (Con CAnd);
    Sl [Sa (Sym TAnon "$narc"); Sa (Sym TAnon "a"); Sa (Sym TAnon "p"); Sa (Sym TAnon "v"); Sa (Sym TAnon "_:crtd_0")]; ty]), 1) /\
  read_obj (S (S (S (S (S (S n)))))) [g; t] 0 =
  Done (Some (Sl [Sa (Con CAnd); ty;
    Sl [Sa (Sym TAnon "$arc"); Sa (Sym TAnon "a"); Sa (Sym TAnon "p"); Sa (Sym TAnon "v")]]), 1).
Proof. intros n. split; reflexivity. Qed.
(** An object as the value of "@graph" is read as propositions named by its keys and values *)
Theorem C70_graph_object_refuted : forall n seed,
  let a s := Sa (Sym TAnon s) in let and x y := Sl [Sa (Con CAnd); x; y] in
  read_obj (S (S (S (S (S (S (S n))))))) [("@graph", NObj [("@id", NStr "a"); ("p", NStr "v")])] seed =
  Done (Some (and (a "v") (and (a "p") (and (a "a") (and (a "@id") (a "$gk_struct$"))))), seed).
Proof. reflexivity. Qed.
(** "@set" is read as the ordered list *)
Theorem C70_set_refuted : forall n l seed,
  read_obj n [("@id", NStr "a"); ("k", NObj [("@set", l)])] seed = read_obj n [("@id", NStr "a"); ("k", NObj [("@list", l)])] seed.
Proof. intros [|n] l seed; [reflexivity|]. unfold read_obj. reflexivity. Qed.
(** With variables in the triples of a conjecture the triples are not facts: here the fact "everything
    likes b" is lost *)
Theorem C70_conjecture_refuted : exists kvs f j out (J : stint bool),
  says kvs [] [("?:X", "likes", TC "b")] /\ legal [] f /\ spells f j /\
  (exists n0, forall n, n0 <= n ->
     read_obj n (("@role", NStr "conjecture") :: ("@logic", value_of j) :: kvs) 0 = Done (Some out, 0)) /\
  sem (int_of J) none out /\ ~ true_in (world_of J) (arc ("?:X", "likes", TC "b")).
Proof.
  set (kvs := [("@id", NStr "?:X"); ("likes", NStr "b")]).
  assert (Nb : name_ok "b") by (unfold name_ok; split; [discriminate|split; [reflexivity|split; cbn; intuition discriminate]]).
  assert (Nl : name_ok "likes") by (unfold name_ok; split; [discriminate|split; [reflexivity|split; cbn; intuition discriminate]]).
  assert (Nq : name_ok "q") by (unfold name_ok; split; [discriminate|split; [reflexivity|split; cbn; intuition discriminate]]).
  assert (Sy : says kvs [] [("?:X", "likes", TC "b")]).
  { apply (S_ref "?:X"); [left; reflexivity|]. unfold kvs. apply O_id; [left; reflexivity|].
    change (@nil string) with (@nil string ++ []). change [("?:X", "likes", TC "b")] with ([("?:X", "likes", word "b")] ++ []).
    apply O_key; [split; [right; exact Nl|cbn; intuition discriminate]|apply V_str; right; exact Nb|apply O_nil]. }
  assert (L : legal [] (FAtom "q" [TC "b"])).
  { cbn. split; [exact Nq|]. split; [reflexivity|]. split; [tauto|]. split; [split; [exact Nb|tauto]|exact Logic.I]. }
  assert (Sp : spells (FAtom "q" [TC "b"]) (JArr [JStr "q"; JStr "b"])).
  { apply S_atom. constructor; [apply ST_cst|constructor]. }
  exists kvs, (FAtom "q" [TC "b"]), (JArr [JStr "q"; JStr "b"]).
  set (J := mkJ (fun _ => true) (fun _ _ => true) (fun _ args => match args with [x; _; _] => x = true | _ => False end)).
  assert (X : exists out, (exists n0, forall n, n0 <= n ->
     read_obj n (("@role", NStr "conjecture") :: ("@logic", value_of (JArr [JStr "q"; JStr "b"])) :: kvs) 0 = Done (Some out, 0)) /\
     (sem (int_of J) none out <-> ~ true_in (world_of J) (FOr [FAtom "q" [TC "b"]; FNot (FAnd (map arc [("?:X", "likes", TC "b")]))]))).
  { destruct (logic_object kvs [] [("?:X", "likes", TC "b")] _ _ (Some (NStr "conjecture")) RConj true Sy ltac:(discriminate) L Sp eq_refl eq_refl 0) as (n & ts & out & A & B & R & M).
    specialize (M bool J (inhabits true)). cbn [means] in M.
    inversion A as [i k1 n1 t1 Ii Oi E1 E2 E3|x k1 n1 t1 Ii Nx Oi E1 E2 E3]; subst; [|exfalso; apply Ii; left; reflexivity].
    destruct Ii as [Ii|[Ii|[]]]; [injection Ii as <-|discriminate].
    inversion Oi; subst; [|match goal with K : key_ok "@id" |- _ => destruct K as [_ K]; exfalso; apply K; left; reflexivity end].
    match goal with O : object_says _ [_] _ _ |- _ => inversion O; subst end.
    match goal with O : object_says _ [] _ _ |- _ => inversion O; subst end.
    match goal with O : value_says _ _ _ _ _ |- _ => inversion O; subst end.
    assert (n = 0) by (destruct n; [reflexivity|discriminate]). subst n.
    exists out. split; [exact R|]. exact M. }
  destruct X as (out & R & M). exists out, J. split; [exact Sy|]. split; [exact L|]. split; [exact Sp|]. split; [exact R|]. split.
  - apply M. intros T. specialize (T (fun _ => true)). cbn in T. destruct T as [[]|[T|[]]]. apply T. split; [reflexivity|exact Logic.I].
  - intros T. specialize (T (fun _ => false)). cbn in T. discriminate.
Qed.

(** ** A case that meets the hypotheses *)
Definition sample : list (string * jv) :=
  [("@id", NStr "company1"); ("@type", NStr "company"); ("name", NStr "Acme"); ("clients", NArr [NStr "a"; NObj [("@id", NStr "b")]]);
   ("owner", NObj [("age", NInt 50); ("child", NObj [("likes", NObj [("@list", NArr [NStr "x"; NInt 3])])])]); ("note", NNull)].
Ltac okname := unfold name_ok; split; [discriminate|split; [reflexivity|split; cbn; intuition discriminate]].
Ltac okkey := split; [right; okname|cbn; intuition discriminate].
Example sample_says : says sample ["_:n0"; "_:n1"]
  [("company1", type_uri, TC "company"); ("company1", "name", TC "Acme"); ("company1", "clients", TC "a"); ("company1", "clients", TC "b");
   ("company1", "owner", TC "_:n0"); ("_:n0", "age", TN 50); ("_:n0", "child", TC "_:n1");
   ("_:n1", "likes", TF "$list" [TC "x"; TF "$list" [TN 3; TC "$nil"]])].
Proof.
  apply (S_ref "company1"); [left; reflexivity|]. unfold sample.
  apply O_id; [right; okname|].
  apply (O_type _ _ _ [] _ [_]); [apply (V_str _ _ "company"); right; okname|].
  apply (O_key _ _ _ _ [] _ [_]); [okkey|apply (V_str _ _ "Acme"); right; okname|].
  apply (O_key _ _ _ _ [] _ [_; _]); [okkey| |].
  { apply V_arr; [discriminate|]. apply (VS_cons _ _ _ _ [] [] [_] [_]); [apply (V_str _ _ "a"); right; okname|].
    apply (VS_cons _ _ _ _ [] [] [_] []); [|apply VS_nil].
    apply (V_ref _ _ _ "b"); [left; reflexivity|]. apply O_id; [right; okname|apply O_nil]. }
  apply (O_key _ _ _ _ ["_:n0"; "_:n1"] [] [_; _; _; _] []); [okkey| |].
  { apply (V_anon _ _ _ "_:n0" ["_:n1"]); [discriminate|cbn; intuition discriminate|okname|].
    apply (O_key _ _ _ _ [] _ [_] _); [okkey|apply V_num; unfold int32; lia|].
    apply (O_key _ _ _ _ ["_:n1"] [] [_; _] []); [okkey| |apply O_nil].
    apply (V_anon _ _ _ "_:n1" []); [discriminate|cbn; intuition discriminate|okname|].
    apply (O_key _ _ _ _ [] [] [_] []); [okkey| |apply O_nil].
    apply V_list. apply (L_cons _ _ (word "x")); [apply E_str; right; okname|].
    apply L_cons; [apply E_num; unfold int32; lia|apply L_nil]. }
  apply (O_key _ _ _ _ [] [] [] []); [okkey|apply V_null|apply O_nil].
Qed.
Example sample_readable : Forall readable [sample; sample].
Proof. assert (R : readable sample) by (eexists; eexists; split; [apply sample_says|discriminate]). constructor; [exact R|]. constructor; [exact R|constructor]. Qed.
(** Both copies are read, with different names for their things *)
Example sample_read : exists outs, read_objs 30 [sample; sample] 0 = Done (outs, 4) /\ List.length outs = 2.
Proof. eexists. split; [vm_compute; reflexivity|reflexivity]. Qed.

Print Assumptions C70_file_partial.
Print Assumptions C70_object_partial.
Print Assumptions C70_logic_partial.
Print Assumptions C70_conjecture_partial.
Print Assumptions C70_question_partial.
Print Assumptions C70_formula.
Print Assumptions C70_empty_string_refuted.
Print Assumptions C70_empty_array_refuted.
Print Assumptions C70_words_refuted.
Print Assumptions C70_collision_refuted.
Print Assumptions C70_graph_order_refuted.
Print Assumptions C70_graph_object_refuted.
Print Assumptions C70_set_refuted.
Print Assumptions C70_conjecture_refuted.
