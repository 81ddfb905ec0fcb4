(** C53: numeric instantiation keeps its limits, repeats no probe and leaves out no probe before
    a limit is reached. *)
From Coq Require Import List ZArith Bool Lia Permutation.
From Verif Require Import Terms AgModel AgSpec AgBase AgProof AgEnd AgRun AgHint.
Import ListNotations.
Open Scope Z_scope.

Lemma clamp_range lo hi x : lo <= hi -> lo <= clamp lo hi x <= hi.
Proof. unfold clamp. destruct (Z.ltb_spec x lo); [lia|]. destruct (Z.ltb_spec hi x); lia. Qed.
Lemma clamp_same lo hi x : lo <= x <= hi -> clamp lo hi x = x.
Proof. unfold clamp. destruct (Z.ltb_spec x lo); [lia|]. destruct (Z.ltb_spec hi x); lia. Qed.

(** Whatever the strategy says, the settings in force are in range; a setting given there is
    kept if it is in range, the others follow from the mode. *)
Theorem C53_settings c :
  let d := configure c in
  (0 <= mode d <= 2 /\ 1 <= max_vars d <= 2 /\ 1 <= cand_limit d <= 32 /\ 1 <= probe_limit d <= 1024 /\
   1 <= keep_limit d <= 64 /\ 1 <= depth_limit d <= 16 /\ 1 <= global_limit d <= 1000000) /\
  (0 <= mode c <= 2 -> mode d = mode c) /\
  (1 <= global_limit c <= 1000000 -> global_limit d = global_limit c) /\
  (Z.testbit (explicit c) 0 = true -> 1 <= max_vars c <= 2 -> max_vars d = max_vars c) /\
  (Z.testbit (explicit c) 1 = true -> 1 <= cand_limit c <= 32 -> cand_limit d = cand_limit c) /\
  (Z.testbit (explicit c) 2 = true -> 1 <= probe_limit c <= 1024 -> probe_limit d = probe_limit c) /\
  (Z.testbit (explicit c) 3 = true -> 1 <= keep_limit c <= 64 -> keep_limit d = keep_limit c) /\
  (Z.testbit (explicit c) 4 = true -> 1 <= depth_limit c <= 16 -> depth_limit d = depth_limit c) /\
  (explicit c = 0 -> mode c = 2 ->
   (max_vars d, cand_limit d, probe_limit d, keep_limit d, depth_limit d) = (2, 6, 32, 4, 2)) /\
  (explicit c = 0 -> mode c = 1 ->
   (max_vars d, cand_limit d, probe_limit d, keep_limit d, depth_limit d) = (1, 4, 16, 2, 1)) /\
  configure d = d.
Proof.
  assert (G : forall n, 0 <= n -> Z.testbit (explicit c) n = true -> given c (2 ^ n) = true).
  { intros n Hn H. unfold given. apply negb_true_iff, Z.eqb_neq. intros E.
    assert (X : Z.testbit (Z.land (explicit c) (2 ^ n)) n = true) by (rewrite Z.land_spec, H, Z.pow2_bits_true; auto).
    rewrite E in X. rewrite Z.bits_0 in X. discriminate. }
  intros d. unfold d, configure. cbn [mode max_vars cand_limit probe_limit keep_limit depth_limit global_limit explicit].
  unfold max_local. split; [|split; [|split; [|split; [|split; [|split; [|split; [|split; [|split; [|split]]]]]]]]].
  - repeat match goal with |- _ /\ _ => split; [apply clamp_range; lia|] end. apply clamp_range; lia.
  - apply clamp_same.
  - apply clamp_same.
  - intros H R. pose proof (G 0 ltac:(lia) H) as Q. change (2 ^ 0) with 1 in Q. rewrite Q. apply clamp_same; auto.
  - intros H R. pose proof (G 1 ltac:(lia) H) as Q. change (2 ^ 1) with 2 in Q. rewrite Q. apply clamp_same; auto.
  - intros H R. pose proof (G 2 ltac:(lia) H) as Q. change (2 ^ 2) with 4 in Q. rewrite Q. apply clamp_same; auto.
  - intros H R. pose proof (G 3 ltac:(lia) H) as Q. change (2 ^ 3) with 8 in Q. rewrite Q. apply clamp_same; auto.
  - intros H R. pose proof (G 4 ltac:(lia) H) as Q. change (2 ^ 4) with 16 in Q. rewrite Q. apply clamp_same; auto.
  - intros H1 H2. unfold given. rewrite H1, H2. reflexivity.
  - intros H1 H2. unfold given. rewrite H1, H2. reflexivity.
  - rewrite !(clamp_same 0 2 (clamp 0 2 _)) by (apply clamp_range; lia). unfold given. cbn [explicit].
    f_equal; try (repeat match goal with |- context [if ?b then _ else _] => is_var b || destruct b end; apply clamp_same, clamp_range; lia).
Qed.
Print Assumptions C53_settings.

(** A run makes at most [global_limit] probes and counts them right.  It makes no probe twice
    as long as the cache of 4096 entries has not filled up; that cannot happen when it could be
    allocated, at most 4096 probes are allowed and every probe counts. *)
Theorem C53_run_bounded code numc answer fo slot_of c0 ask on got cs g g' log ls :
  let cf := configure c0 in
  between_runs g -> run code numc answer fo slot_of cf ask on got cs (reset g) [] = (g', log, ls) ->
  Z.of_nat (length log) <= global_limit cf /\ done g' = Z.of_nat (length log) /\
  (saturated g' = false -> NoDup log) /\
  ((forall log k, ask log k <> None) -> got = true -> global_limit cf <= 4096 -> NoDup log).
Proof.
  intros cf Hb E. pose proof (reset_cinv slot_of cf ask g (between_wf g Hb)) as I.
  destruct (run_inv code numc answer fo slot_of cf ask on got _ _ _ _ _ _ I E) as (J&_&R).
  pose proof (i_done _ _ _ _ _ J) as D. pose proof (i_nodup _ _ _ _ _ J) as N.
  assert (0 < global_limit cf) by (pose proof (C53_settings c0) as X; cbv zeta in X; fold cf in X; lia).
  split; [rewrite <- D; eapply i_lim; eauto|]. split; auto. split; auto.
  intros T Hg Hl. apply N. apply R; auto. split; auto.
Qed.
Print Assumptions C53_run_bounded.

(** The clause chosen after any part of a run: its new probes are different, proper and within
    the limit, not more instances are kept than allowed or than probes were made; nothing
    happens when the setting is off or the clause is itself too deep a numeric instance. *)
Theorem C53_call_bounded code numc answer fo slot_of c0 ask on got cs g g1 log1 ls c :
  let cf := configure c0 in
  between_runs g -> run code numc answer fo slot_of cf ask on got cs (reset g) [] = (g1, log1, ls) ->
  let l := generate code numc answer fo slot_of cf ask on got c g1 log1 in
  exists new, llog l = new ++ log1 /\ NoDup new /\ Z.of_nat (length new) <= probe_limit cf /\
    0 <= lkept l <= Z.min (keep_limit cf) (Z.of_nat (length new)) /\
    Forall (proper_probe code answer cf c (cands code numc answer fo c g1)) new /\
    (new <> [] -> depth (AInst (anc_of c)) <= depth_limit cf) /\
    (mode cf = 0 \/ on = false -> new = [] /\ cache (lg l) = cache g1).
Proof.
  intros cf Hb E l. pose proof (reset_cinv slot_of cf ask g (between_wf g Hb)) as I.
  destruct (run_inv code numc answer fo slot_of cf ask on got _ _ _ _ _ _ I E) as (J&_&R).
  destruct (generate_called code numc answer fo slot_of cf ask on got c g1 log1 J) as [A B C (new&N1&N2&N3&N4&N5&N6) T K O All]. fold l in A, B, C, N1, N4, N5, T, K, O.
  pose proof (C53_settings c0) as X. cbv zeta in X. fold cf in X. destruct X as (X&_).
  exists new. split; auto. split; auto. split; [lia|]. split; [lia|]. split.
  - eapply Forall_impl; [|exact N3]. intros k Hk. apply (schedule_proper code numc answer fo c0 c g1 k Hk).
  - split.
    + intros H. cbn [depth]. destruct (Z_le_gt_dec (depth_limit cf) (depth (anc_of c))) as [L|L]; [|lia]. exfalso. auto.
    + intros H. split; auto. destruct H; auto.
Qed.
Print Assumptions C53_call_bounded.

(** When no limit was reached and no proof found, every way of putting candidates for the one or
    two variables of an arithmetic term was tried, or given up for lack of memory. *)
Theorem C53_exhaustive code numc answer fo slot_of c0 ask on got cs g g1 log1 ls c a us ns :
  let cf := configure c0 in
  between_runs g -> run code numc answer fo slot_of cf ask on got cs (reset g) [] = (g1, log1, ls) ->
  let l := generate code numc answer fo slot_of cf ask on got c g1 log1 in
  mode cf <> 0 -> on = true -> depth (AInst (anc_of c)) <= depth_limit cf ->
  ltried l < probe_limit cf -> lkept l < keep_limit cf -> done (lg l) < global_limit cf -> proof (lg l) = false ->
  few_terms code (atoms c) ->
  In a (atoms c) -> visible code numc (TRec us) a -> arithmetic (code (TRec us)) = true ->
  let vs := term_vars (TRec us) in
  (length vs = 1%nat \/ length vs = 2%nat /\ mode cf = 2) -> Z.of_nat (length vs) <= max_vars cf ->
  (forall v, In v vs -> ~ direct code answer (atoms c) v) ->
  length ns = length vs ->
  (forall n, In n ns -> exists i x, Z.of_nat i < cand_limit cf /\ nth_error (cands code numc answer fo c g1) i = Some x /\ cnum x = n) ->
  In (ptr c, vs, ns) (llog l) \/ exists log, ask log (ptr c, vs, ns) = None.
Proof.
  intros cf Hb E l Hm Hon Hd T1 T2 T3 T4 (L&HL1&HL2) Ha Hv Har vs Hlen Hmax Hdir Hns Hn.
  pose proof (reset_cinv slot_of cf ask g (between_wf g Hb)) as I.
  destruct (run_inv code numc answer fo slot_of cf ask on got _ _ _ _ _ _ I E) as (J&_&R).
  destruct (generate_called code numc answer fo slot_of cf ask on got c g1 log1 J) as [_ _ _ _ _ _ _ All]. fold l in All.
  set (s := scan_clause code numc answer fo (atoms c)) in *.
  destruct (scan_clause_ok code numc answer fo (atoms c)) as [_ (F1&F2&F3)]. fold s in F1, F2, F3.
  apply All; auto.
  - cbn [depth] in Hd. lia.
  - unfold stop. rewrite T4, !orb_false_r. apply orb_false_iff. split; [apply orb_false_iff; split|]; apply Z.leb_gt; auto.
  - apply schedule_all; auto.
    + destruct (scan_clause_covers code numc answer fo us (atoms c) a Ha Hv) as [H|H]; auto.
      * fold vs. tauto.
      * exfalso. fold s in H.
        assert (incl (fronts s) L).
        { intros ws Hw. rewrite Forall_forall in F3. destruct (F3 ws Hw) as (_&Hl&u&(b&Hb1&Hb2)&Hu&->). apply (HL2 b); auto. lia. }
        pose proof (NoDup_incl_length F1 H0). lia.
    + destruct (bindable s vs) eqn:Eb; auto. exfalso.
      destruct (bindable_direct code numc answer fo (atoms c) vs) as [B _]. fold s in B. destruct (B Eb) as (v&Hin&Hdv). eapply Hdir; eauto.
    + destruct Hlen as [?|[? ?]]; [auto|right; split; auto; lia].
Qed.
Print Assumptions C53_exhaustive.

(** The candidates: different numbers, at most 32, in order of rank and size; 0, 1 and -1 are
    always among them while there is room. *)
Theorem C53_candidates code numc answer fo c g :
  let cs := cands code numc answer fo c g in
  NoDup (map cnum cs) /\ (length cs <= 32)%nat /\ in_order cs /\
  ((length cs < 32)%nat -> offered (NInt 0) 80 cs /\ offered (NInt 1) 80 cs /\ offered (NInt (-1)) 80 cs).
Proof.
  unfold cands. destruct (complete fo _ (glob g)) as [cs gl] eqn:Ec. cbn [fst].
  destruct (complete_spec fo _ _ _ _ (proj1 (scan_clause_ok code numc answer fo (atoms c))) Ec) as ([A B]&C&_&D). auto.
Qed.
Print Assumptions C53_candidates.

Lemma cands_ext code numc answer fo c g : ext (vals (scan_clause code numc answer fo (atoms c))) (cands code numc answer fo c g).
Proof.
  unfold cands. destruct (complete fo _ (glob g)) as [cs gl] eqn:Ec. cbn [fst].
  destruct (complete_spec fo _ _ _ _ (proj1 (scan_clause_ok code numc answer fo (atoms c))) Ec) as (_&_&E&_). auto.
Qed.

(** The numbers a comparison in the clause compares with, and their neighbours, are candidates. *)
Theorem C53_boundaries code numc answer fo c g a us i v :
  In a (atoms c) -> visible code numc (TRec us) a -> code (TRec us) = CCompare ->
  i = 1%nat \/ i = 2%nat -> decode_arg code numc i (TRec us) = Some v ->
  (length (cands code numc answer fo c g) < 32)%nat -> bounds v (cands code numc answer fo c g).
Proof.
  intros Ha Hv Hc Hi Hd L. pose proof (cands_ext code numc answer fo c g) as E. eapply bounds_ext; [exact E|].
  eapply scan_clause_offers; eauto. destruct E as [_ E]. lia.
Qed.
Print Assumptions C53_boundaries.

(** The integer that solves an equation such as x + 3 = 7 in the clause is a candidate, before
    all others. *)
Theorem C53_solutions code numc answer fo c g a es sw n k t :
  In a (atoms c) -> equation code numc a (TRec es) t -> linear code numc (TRec es) sw k ->
  solves (code (TRec es)) sw n k t -> in64 n = true ->
  (length (cands code numc answer fo c g) < 32)%nat -> offered (NInt n) 10 (cands code numc answer fo c g).
Proof.
  intros Ha [Hc Heq] Hl Hs Hn L. pose proof (cands_ext code numc answer fo c g) as [E1 E2]. apply E1.
  assert (X : exists eqs, a = TRec eqs).
  { unfold decode_arg in Heq. destruct a as [|x|eqs]; [exfalso; cbn in Heq; intuition congruence|exfalso; cbn in Heq; intuition congruence|eauto]. }
  destruct X as [eqs ->].
  eapply (scan_clause_solutions code numc answer fo (atoms c) (TRec eqs) es eqs sw n k t
    (if arg 1 (TRec eqs) then if decode_arg code numc 1 (TRec eqs) then false else true else true)); eauto; [|lia].
  destruct Heq as [[H1 H2]|[H1 H2]].
  - rewrite H1. destruct (decode_arg code numc 1 (TRec eqs)) as [q|] eqn:Ed; [|auto].
    exfalso. unfold decode_arg in Ed. rewrite H1 in Ed. cbn [decode] in Ed.
    unfold solves in Hs. destruct (code (TRec es)); try discriminate. destruct sw; contradiction.
  - assert (X : exists y, arg 1 (TRec eqs) = Some y) by (unfold decode_arg in H1; destruct (arg 1 (TRec eqs)); [eauto|discriminate]).
    destruct X as [y ->]. rewrite H1. auto.
Qed.
Print Assumptions C53_solutions.

(** ** Cases that meet the hypotheses *)
(** sum(X,3) = 7 | X < 10 | Q(Y), with the initial settings. *)
Definition PLUS := CLong 1.
Definition EQ := CLong 2.
Definition LESS := CLong 3.
Definition QQ := CLong 4.
Definition code1 (t : term) : comp :=
  match t with
  | TRec (TCst (CLong 1) :: _) => CPlus
  | TRec (TCst (CLong 2) :: _) => CEqual
  | TRec (TCst (CLong 3) :: _) => CCompare
  | _ => NoComp
  end.
Definition numc1 (c : cst) : option num := match c with CImm z => Some (NInt z) | CInt z => Some (NInt z) | _ => None end.
Definition fo1 : fops := {| f_of := fun z => z; f_add := fun _ _ => None; f_sub := fun _ _ => None; f_mid := fun _ _ => None;
                            f_div := fun _ _ => None; f_one := 1 |}.
Definition slot1 (k : key) : nat := match k with (p, vs, ns) => Z.to_nat p end.
Definition ask1 (log : list key) (k : key) : option (bool * bool) := Some (false, false).
Definition nc (z : Z) : term := TCst (CImm z).
Definition sum : term := TRec [TCst PLUS; TVar 0; nc 3].
Definition eqn : term := TRec [TCst EQ; sum; nc 7].
Definition less : term := TRec [TCst LESS; TVar 0; nc 10].
Definition call1 : call := {| ptr := 50; atoms := [eqn; less; TRec [TCst QQ; TVar 1]]; anc_of := AOther; proof_in := false |}.
Definition nope (t : term) : bool := false.
Definition result1 := generate code1 numc1 nope fo1 slot1 (configure init_conf) ask1 true true call1 (reset fresh) [].

Example C53_nonvacuous : between_runs fresh /\
  run code1 numc1 nope fo1 slot1 (configure init_conf) ask1 true true [] (reset fresh) [] = (reset fresh, [], []) /\
  llog result1 = [(50, [0], [NInt 11]); (50, [0], [NInt 9]); (50, [0], [NInt 10]); (50, [0], [NInt 4])] /\
  saturated (lg result1) = false.
Proof. split; [constructor|]. split; [reflexivity|]. split; vm_compute; reflexivity. Qed.

Example C53_nonvacuous_exhaustive :
  mode (configure init_conf) <> 0 /\ depth (AInst (anc_of call1)) <= depth_limit (configure init_conf) /\
  ltried result1 < probe_limit (configure init_conf) /\ lkept result1 < keep_limit (configure init_conf) /\
  done (lg result1) < global_limit (configure init_conf) /\ proof (lg result1) = false /\
  few_terms code1 (atoms call1) /\ In eqn (atoms call1) /\ visible code1 numc1 sum eqn /\ arithmetic (code1 sum) = true /\
  term_vars sum = [0] /\ ~ direct code1 nope (atoms call1) 0 /\
  exists i x, Z.of_nat i < cand_limit (configure init_conf) /\ nth_error (cands code1 numc1 nope fo1 call1 (reset fresh)) i = Some x /\ cnum x = NInt 4.
Proof.
  split; [discriminate|]. split; [vm_compute; discriminate|].
  split; [vm_compute; reflexivity|]. split; [vm_compute; reflexivity|]. split; [vm_compute; reflexivity|]. split; [vm_compute; reflexivity|].
  split; [|split; [left; reflexivity|]].
  - exists [[0]]. split; [simpl; lia|]. intros a u Ha Hs Har _. left.
    destruct Ha as [<-|[<-|[<-|[]]]].
    + inversion Hs as [|fs f Hf H]; subst; [discriminate|]. destruct Hf as [<-|[<-|[<-|[]]]]; inversion H; subst; try discriminate; try reflexivity.
      destruct H1 as [<-|[<-|[<-|[]]]]; inversion H2; subst; discriminate.
    + inversion Hs as [|fs f Hf H]; subst; [reflexivity|]. destruct Hf as [<-|[<-|[<-|[]]]]; inversion H; subst; discriminate.
    + inversion Hs as [|fs f Hf H]; subst; [discriminate|]. destruct Hf as [<-|[<-|[]]]; inversion H; subst; discriminate.
  - split; [|split; [reflexivity|split; [reflexivity|split]]].
    + apply vis_in with (f := sum); [reflexivity|simpl; auto|apply vis_here; reflexivity].
    + intros (fs&Hf&_&Hc&Hv). destruct Hf as [E|[E|[E|[]]]]; injection E as <-; try discriminate.
      destruct Hv as [E|[E|[]]]; discriminate.
    + exists 0%nat. eexists. split; [vm_compute; reflexivity|]. split; [vm_compute; reflexivity|reflexivity].
Qed.

Example C53_nonvacuous_solutions : equation code1 numc1 eqn sum 7 /\ linear code1 numc1 sum false 3 /\ solves (code1 sum) false 4 3 7 /\
  in64 4 = true /\ (length (cands code1 numc1 nope fo1 call1 (reset fresh)) < 32)%nat /\
  code1 less = CCompare /\ decode_arg code1 numc1 2 less = Some (NInt 10).
Proof.
  split; [split; [reflexivity|left; split; reflexivity]|]. split; [exists 0; split; [reflexivity|split; reflexivity]|].
  split; [reflexivity|]. split; [reflexivity|]. split; [vm_compute; lia|]. split; reflexivity.
Qed.
