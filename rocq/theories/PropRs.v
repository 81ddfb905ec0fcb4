(** C72: a document query returns every document that meets all conditions, once. *)
From Coq Require Import ZArith Znumtheory Lia List Bool Arith.
From Verif Require Import RsModel RsProof.
Import ListNotations.
Open Scope Z_scope.

(** ** Specification: a set of results as the list of the offsets it gives when read from the start *)
Definition offsets (l : list Z) : Prop := Forall (fun x => x <> 0) l.
Definition reads_as (s : rset) (l : list Z) : Prop :=
  WF s /\ offsets l /\ count s = length l /\
  forall St (f : Z -> St -> res St) st, each s f st = foldM f l st.
Lemma wf_reads s : WF s -> reads_as s (elems s).
Proof. intros W. split; [exact W|]. split; [apply W|]. split; [apply W|]. intros St f st. apply each_ok, W. Qed.
Lemma reads_elems s l : reads_as s l -> l = elems s.
Proof.
  intros (W & _ & _ & E). specialize (E (list Z) (fun x st => Ok (st ++ [x])) []). rewrite (each_ok _ _ _ W) in E.
  assert (G : forall m st, foldM (fun x st => Ok (st ++ [x])) m st = Ok (st ++ m)).
  { induction m as [|x m IH]; intros st; cbn [foldM bind]; [rewrite app_nil_r; reflexivity|]. rewrite IH, <- app_assoc. reflexivity. }
  rewrite !G in E. injection E as E. symmetry. exact E.
Qed.

(** Appending to a new set and reading gives the offsets in order *)
Theorem C72_pages : forall l, offsets l -> reads_as (of_list l) l.
Proof. intros l N. destruct (of_list_ok l N) as [W E]. rewrite <- E at 2. apply wf_reads, W. Qed.

Lemma in_nz s x : WF s -> In x (elems s) -> x <> 0.
Proof. intros (_ & N & _) I. rewrite Forall_forall in N. apply N, I. Qed.
Lemma existsb_in x l : existsb (Z.eqb x) l = true <-> In x l.
Proof. rewrite existsb_exists. split; [intros (y & I & E); apply Z.eqb_eq in E; subst; exact I|intros I; exists x; split; [exact I|apply Z.eqb_refl]]. Qed.

Lemma fold_filter (P : Z -> bool) : forall l out, WF out -> offsets l ->
  exists out', foldM (fun x out => Ok (if P x then append out x else out)) l out = Ok out' /\ WF out' /\ elems out' = elems out ++ filter P l.
Proof.
  induction l as [|x l IH]; intros out W N; cbn [foldM filter bind].
  - exists out. rewrite app_nil_r. split; [reflexivity|]. split; [exact W|reflexivity].
  - inversion N; subst. destruct (P x).
    + destruct (append_ok out x W) as [A B]; [assumption|]. destruct (IH _ A) as (o & X & Y & Z1); [assumption|].
      exists o. split; [exact X|]. split; [exact Y|]. rewrite Z1, B, <- app_assoc. reflexivity.
    + apply IH; assumption.
Qed.
Lemma fold_nested : forall l b out, WF b -> WF out -> offsets l ->
  exists b' out', foldM (fun x st => '(found, b') <- search (fst st) x ;; Ok (b', if found : bool then append (snd st) x else snd st)) l (b, out) = Ok (b', out') /\
    WF out' /\ elems out' = elems out ++ filter (fun x => existsb (Z.eqb x) (elems b)) l.
Proof.
  induction l as [|x l IH]; intros b out Wb W N; cbn [foldM filter].
  - exists b, out. rewrite app_nil_r. split; [reflexivity|]. split; [exact W|reflexivity].
  - inversion N; subst. cbn [fst snd]. destruct (search_ok b x Wb) as (b1 & -> & W1 & E1). cbn [bind]. rewrite <- E1.
    destruct (existsb (Z.eqb x) (elems b1)).
    + destruct (append_ok out x W) as [A B]; [assumption|]. destruct (IH b1 _ W1 A) as (b2 & o & X & Y & Z1); [assumption|].
      exists b2, o. split; [exact X|]. split; [exact Y|]. rewrite Z1, B, <- app_assoc. reflexivity.
    + apply IH; assumption.
Qed.

(** The intersection of two sets, whatever way it is made, has just the offsets that are in both; if
    neither has an offset twice, neither has the result.  It fails only for two sets of more than
    201326610 offsets. *)
Theorem C72_intersection : forall h a b la lb, reads_as a la -> reads_as b lb ->
  (exists c l, intersect h a b = Ok c /\ reads_as c l /\ (forall x, In x l <-> In x la /\ In x lb) /\
     (NoDup la -> NoDup lb -> NoDup l) /\ (length l <= Nat.max (length la) (length lb))%nat) \/
  (intersect h a b = Null /\ 201326611 <= Z.of_nat (length la) /\ 201326611 <= Z.of_nat (length lb)).
Proof.
  intros h a b la lb Ra Rb. rewrite (reads_elems _ _ Ra), (reads_elems _ _ Rb). destruct Ra as (Wa & _), Rb as (Wb & _).
  assert (Ca : count a = length (elems a)) by apply Wa. assert (Cb : count b = length (elems b)) by apply Wb. destruct create_ok as [Wc Ec]. unfold intersect.
  assert (Fl : forall (P : Z -> bool) m, (length (filter P m) <= length m)%nat).
  { intros P m. induction m as [|x m IH]; cbn; [lia|]. destruct (P x); cbn; lia. }
  destruct (Z.of_nat (count a) * Z.of_nat (count b) <? 200).
  - left. rewrite each_ok by exact Wa. destruct (fold_nested (elems a) b create Wb Wc) as (b' & o & -> & Wo & Eo); [apply Wa|]. cbn [bind].
    exists o, (elems o). split; [reflexivity|]. split; [apply wf_reads, Wo|]. rewrite Ec in Eo. cbn [app] in Eo. rewrite Eo. split; [|split].
    + intros x. rewrite filter_In, existsb_in. reflexivity.
    + intros Na _. apply NoDup_filter, Na.
    + specialize (Fl (fun x => existsb (Z.eqb x) (elems b)) (elems a)). lia.
  - assert (H : forall a b, WF a -> WF b -> (count a <= count b)%nat ->
      let r := t <- dhash_init (Z.of_nat (count a)) ;; t <- each a (fun x t => addkey h t x) t ;;
               each b (fun x out => Ok (if haskey h t x then append out x else out)) create in
      (exists o, r = Ok o /\ WF o /\ (forall x, In x (elems o) <-> In x (elems a) /\ In x (elems b)) /\ (NoDup (elems b) -> NoDup (elems o)) /\ (length (elems o) <= length (elems b))%nat) \/
      (r = Null /\ 201326611 <= Z.of_nat (count a))).
    { clear - Wc Ec Fl. intros a b Wa Wb Le r. unfold r. clear r. pose proof (init_ok (Z.of_nat (count a)) ltac:(lia)) as I.
      destruct (dhash_init (Z.of_nat (count a))) as [t| |]; [|right; split; [reflexivity|lia]|destruct I]. destruct I as (P & Sz & E0). cbn [bind].
      rewrite (each_ok _ a) by exact Wa. assert (Ca : count a = length (elems a)) by apply Wa.
      destruct (Z.le_gt_cases 201326611 (Z.of_nat (count a))) as [Big|Small].
      - destruct (foldM (fun x t => addkey h t x) (elems a) t) as [t'| |] eqn:F.
        + (* it may still succeed: the table then holds all of them *)
          assert (G : forall l t t' ks, DI h t ks -> offsets l -> foldM (fun x t => addkey h t x) l t = Ok t' -> exists ks', DI h t' ks' /\ forall x, In x ks' <-> In x l \/ In x ks).
          { clear. induction l as [|x l IH]; intros t t' ks D N F; cbn [foldM] in F.
            - injection F as <-. exists ks. split; [exact D|]. intros x. split; [intros X; right; exact X|intros [[]|X]; exact X].
            - inversion N; subst. pose proof (addkey_ok h t ks x D ltac:(assumption)) as A. destruct (addkey h t x) as [t1| |]; cbn [bind] in F; [|discriminate|discriminate].
              destruct A as (_ & ks1 & D1 & _ & M1). destruct (IH t1 t' ks1 D1 ltac:(assumption) F) as (ks2 & D2 & M2). exists ks2. split; [exact D2|].
              intros y. rewrite M2, M1. cbn. split; intros X; [destruct X as [X|[X|X]]; auto|destruct X as [[X|X]|X]; auto]. }
          destruct (G _ _ _ [] (empty_DI h t P E0) ltac:(apply Wa) F) as (ks & D & M). left. cbn [bind]. rewrite each_ok by exact Wb.
          destruct (fold_filter (haskey h t') (elems b) create Wc ltac:(apply Wb)) as (o & -> & Wo & Eo). exists o. split; [reflexivity|]. split; [exact Wo|].
          rewrite Ec in Eo. cbn [app] in Eo. rewrite Eo. split; [|split; [apply NoDup_filter|apply Fl]]. intros x. rewrite filter_In. split.
          * intros [X Y]. apply (haskey_ok h t' ks x D (in_nz b x Wb X)), M in Y as [Y|[]]. split; assumption.
          * intros [X Y]. split; [exact Y|]. apply (haskey_ok h t' ks x D (in_nz b x Wb Y)), M. left. exact X.
        + right. split; [reflexivity|exact Big].
        + exfalso. clear - F P E0 Wa. assert (G : forall l t ks, DI h t ks -> offsets l -> foldM (fun x t => addkey h t x) l t <> Fuel).
          { clear. induction l as [|x l IH]; intros t ks D N; cbn [foldM]; [discriminate|]. inversion N; subst.
            pose proof (addkey_ok h t ks x D ltac:(assumption)) as A. destruct (addkey h t x) as [t1| |]; cbn [bind]; [|discriminate|destruct A].
            destruct A as (_ & ks1 & D1 & _). exact (IH t1 ks1 D1 ltac:(assumption)). }
          exact (G _ _ [] (empty_DI h t P E0) ltac:(apply Wa) F).
      - left. destruct (adds_ok h (elems a) t [] (empty_DI h t P E0)) as (t' & ks & -> & D & M); [apply Wa|cbn [length]; lia|]. cbn [bind]. rewrite each_ok by exact Wb.
        destruct (fold_filter (haskey h t') (elems b) create Wc ltac:(apply Wb)) as (o & -> & Wo & Eo). exists o. split; [reflexivity|]. split; [exact Wo|].
        rewrite Ec in Eo. cbn [app] in Eo. rewrite Eo. split; [|split; [apply NoDup_filter|apply Fl]]. intros x. rewrite filter_In. split.
        * intros [X Y]. apply (haskey_ok h t' ks x D (in_nz b x Wb X)), M in Y as [Y|[]]. split; assumption.
        * intros [X Y]. split; [exact Y|]. apply (haskey_ok h t' ks x D (in_nz b x Wb Y)), M. left. exact X. }
    destruct (Nat.ltb_spec (count b) (count a)) as [L|L].
    + destruct (H b a Wb Wa ltac:(lia)) as [(o & E & Wo & M & N & Le)|[E B]]; cbn zeta in E; rewrite E.
      * left. exists o, (elems o). split; [reflexivity|]. split; [apply wf_reads, Wo|]. split; [intros x; rewrite M; tauto|]. split; [intros Na _; apply N, Na|lia].
      * right. split; [reflexivity|]. lia.
    + destruct (H a b Wa Wb ltac:(lia)) as [(o & E & Wo & M & N & Le)|[E B]]; cbn zeta in E; rewrite E.
      * left. exists o, (elems o). split; [reflexivity|]. split; [apply wf_reads, Wo|]. split; [exact M|]. split; [intros _ Nb; apply N, Nb|lia].
      * right. split; [reflexivity|]. lia.
Qed.

Lemma nodup_snoc (l : list Z) x : NoDup l -> ~ In x l -> NoDup (l ++ [x]).
Proof. intros D N. apply (NoDup_Add (a := x) (l := l)); [|split; assumption]. replace l with (l ++ []) at 1 by apply app_nil_r. apply Add_app. Qed.
Lemma fold_unique : forall l out, WF out -> offsets l -> NoDup (elems out) ->
  exists o, foldM (fun x out => '(found, out) <- search out x ;; Ok (if found : bool then out else append out x)) l out = Ok o /\
    WF o /\ NoDup (elems o) /\ (forall x, In x (elems o) <-> In x (elems out) \/ In x l) /\ (length (elems o) <= length (elems out) + length l)%nat.
Proof.
  induction l as [|x l IH]; intros out W N D; cbn [foldM].
  - exists out. split; [reflexivity|]. split; [exact W|]. split; [exact D|]. split; [|cbn; lia]. intros x. split; [intros X; left; exact X|intros [X|[]]; exact X].
  - inversion N; subst. destruct (search_ok out x W) as (o1 & -> & W1 & E1). cbn [bind]. rewrite <- E1. destruct (existsb (Z.eqb x) (elems o1)) eqn:Ex.
    + apply existsb_in in Ex. destruct (IH o1 W1 ltac:(assumption) ltac:(rewrite E1; exact D)) as (o & A & B & C & M & L). exists o. split; [exact A|]. split; [exact B|]. split; [exact C|].
      split; [|cbn [length]; lia]. intros y. rewrite M. cbn. split; intros [Y|Y]; auto. destruct Y as [ <-|Y]; auto.
    + destruct (append_ok o1 x W1) as [A1 B1]; [assumption|].
      assert (NI : ~ In x (elems o1)) by (intros X; apply existsb_in in X; congruence).
      destruct (IH _ A1 ltac:(assumption)) as (o & A & B & C & M & L).
      { rewrite B1. apply nodup_snoc; [rewrite E1; exact D|exact NI]. }
      exists o. split; [exact A|]. split; [exact B|]. split; [exact C|]. rewrite B1 in *. split; [|rewrite app_length in L; cbn in *; lia].
      intros y. rewrite M, in_app_iff. cbn. tauto.
Qed.
Lemma fold_hash h : forall l t out ks, DI h t ks -> (forall x, In x ks <-> In x (elems out)) -> (length ks <= length (elems out))%nat ->
  WF out -> offsets l -> NoDup (elems out) ->
  let r := foldM (fun x st => if haskey h (fst st) x then Ok st else t <- addkey h (fst st) x ;; Ok (t, append (snd st) x)) l (t, out) in
  (exists t' o, r = Ok (t', o) /\ WF o /\ NoDup (elems o) /\ (forall x, In x (elems o) <-> In x (elems out) \/ In x l) /\ (length (elems o) <= length (elems out) + length l)%nat) \/
  (r = Null /\ size t < Z.of_nat (length (elems out) + length l)).
Proof.
  induction l as [|x l IH]; intros t out ks D M Le W N Nd; cbn [foldM]; cbn zeta.
  - left. exists t, out. split; [reflexivity|]. split; [exact W|]. split; [exact Nd|]. split; [|cbn; lia]. intros x. split; [intros X; left; exact X|intros [X|[]]; exact X].
  - inversion N as [|? ? Nx Nl]; subst. cbn [fst snd]. pose proof (haskey_ok h t ks x D Nx) as Hk. destruct (haskey h t x) eqn:Ex.
    + assert (Ix : In x (elems out)) by (apply M, Hk; reflexivity). cbn [bind].
      destruct (IH t out ks D M Le W Nl Nd) as [(t' & o & A & B & C & M' & L)|[A L]].
      * left. exists t', o. split; [exact A|]. split; [exact B|]. split; [exact C|]. split; [|cbn [length]; lia]. intros y. rewrite M'. cbn. split; intros [Y|Y]; auto. destruct Y as [ <-|Y]; auto.
      * right. split; [exact A|]. cbn [length]. lia.
    + assert (NI : ~ In x (elems out)) by (intros X; apply M, Hk in X; discriminate).
      pose proof (addkey_ok h t ks x D Nx) as A. destruct (addkey h t x) as [t1| |]; cbn [bind]; [|right; split; [reflexivity|cbn [length]; lia]|destruct A].
      destruct A as (Sz & ks1 & D1 & L1 & M1). destruct (append_ok out x W Nx) as [A1 B1].
      destruct (IH t1 (append out x) ks1 D1) as [(t' & o & A & B & C & M' & L)|[A L]].
      * intros y. rewrite M1, B1, in_app_iff, M. cbn. split; intros [Y|Y]; auto. destruct Y as [Y|[]]; auto.
      * rewrite B1, app_length. cbn. lia.
      * exact A1.
      * exact Nl.
      * rewrite B1. apply nodup_snoc; assumption.
      * left. exists t', o. split; [exact A|]. split; [exact B|]. split; [exact C|]. rewrite B1 in *. split; [|rewrite app_length in L; cbn in *; lia]. intros y. rewrite M', in_app_iff. cbn. tauto.
      * right. split; [exact A|]. rewrite B1, app_length, Sz in L. cbn in *. lia.
Qed.
(** The unique rows of a set: the same offsets, each once.  It fails only for more than 201326611 of them. *)
Theorem C72_unique : forall h s l, reads_as s l ->
  (exists c m, unique h s = Ok c /\ reads_as c m /\ NoDup m /\ (forall x, In x m <-> In x l) /\ (length m <= length l)%nat) \/
  (unique h s = Null /\ 201326611 < Z.of_nat (length l)).
Proof.
  intros h s l R. rewrite (reads_elems _ _ R). destruct R as (W & _). assert (C : count s = length (elems s)) by apply W. destruct create_ok as [Wc Ec]. unfold unique.
  destruct (Z.of_nat (count s) <? 20).
  - left. rewrite each_ok by exact W. destruct (fold_unique (elems s) create Wc ltac:(apply W)) as (o & -> & A & B & M & L); [rewrite Ec; constructor|].
    exists o, (elems o). split; [reflexivity|]. split; [apply wf_reads, A|]. split; [exact B|]. rewrite Ec in *. split; [intros x; rewrite M; cbn; tauto|exact L].
  - pose proof (init_ok (Z.of_nat (count s)) ltac:(lia)) as I. destruct (dhash_init (Z.of_nat (count s))) as [t| |]; [|right; split; [reflexivity|lia]|destruct I].
    destruct I as (P & Sz & E0). cbn [bind]. rewrite each_ok by exact W.
    destruct (fold_hash h (elems s) t create [] (empty_DI h t P E0)) as [(t' & o & E & A & B & M & L)|[E L]].
    + rewrite Ec. tauto.
    + cbn. lia.
    + exact Wc.
    + apply W.
    + rewrite Ec. constructor.
    + rewrite E. left. exists o, (elems o). split; [reflexivity|]. split; [apply wf_reads, A|]. split; [exact B|]. rewrite Ec in *. split; [intros x; rewrite M; cbn; tauto|exact L].
    + rewrite E. right. split; [reflexivity|]. rewrite Ec in L. cbn [length Nat.add] in L. destruct Sz as [Sz|Sz]; lia.
Qed.

(** The query: if every search gives just the documents that meet its condition, in any order and any
    number of times, the result has just the documents that meet all conditions, each once.  It fails
    only when some search gives more than 201326610 documents.  Missing: that the searches do so (the
    finding of the documents of matching rows is not modelled). *)
Theorem C72_query_partial : forall h (doc : Z -> Prop) args, args <> [] ->
  (forall x, doc x -> x <> 0) ->
  Forall (fun a => forall x, In x (found a) <-> doc x /\ holds a x = true) args ->
  Forall (fun a => Z.of_nat (length (found a)) <= 201326610) args ->
  exists c l, merge h args None = Ok (Some c) /\ reads_as c l /\ NoDup l /\
    forall x, In x l <-> doc x /\ Forall (fun a => holds a x = true) args.
Proof.
  intros h doc args Ne Nz.
  assert (G : forall args (c : rset) lc (done : list arg), reads_as c lc -> NoDup lc -> Z.of_nat (length lc) <= 201326610 ->
    (forall x, In x lc <-> doc x /\ Forall (fun a => holds a x = true) done) ->
    Forall (fun a => forall x, In x (found a) <-> doc x /\ holds a x = true) args ->
    Forall (fun a => Z.of_nat (length (found a)) <= 201326610) args ->
    exists c' l, merge h args (Some c) = Ok (Some c') /\ reads_as c' l /\ NoDup l /\
      forall x, In x l <-> doc x /\ Forall (fun a => holds a x = true) (done ++ args)).
  { clear args Ne. induction args as [|a args IH]; intros c lc done R Nd Lc M F1 F2; cbn [merge].
    - exists c, lc. rewrite app_nil_r. split; [reflexivity|]. split; [exact R|]. split; [exact Nd|exact M].
    - inversion F1 as [|? ? Fa Fr]; subst. inversion F2 as [|? ? La Lr]; subst.
      assert (Off : offsets (found a)) by (apply Forall_forall; intros x X; apply Nz, Fa, X).
      assert (Fin : forall c2 l2, reads_as c2 l2 -> NoDup l2 -> Z.of_nat (length l2) <= 201326610 -> (forall x, In x l2 <-> In x lc /\ (doc x /\ holds a x = true)) ->
        exists c' l, merge h args (Some c2) = Ok (Some c') /\ reads_as c' l /\ NoDup l /\ forall x, In x l <-> doc x /\ Forall (fun a => holds a x = true) (done ++ a :: args)).
      { intros c2 l2 R2 N2 L2 M2. destruct (IH c2 l2 (done ++ [a]) R2 N2 L2) as (c' & l & A & B & C & D); [|exact Fr|exact Lr|].
        - intros x. rewrite M2, M, Forall_app. split; [intros ((X & Y) & (_ & Z1)); split; [exact X|split; [exact Y|constructor; [exact Z1|constructor]]]|].
          intros (X & Y & Z1). inversion Z1; subst. tauto.
        - exists c', l. rewrite <- app_assoc in D. split; [exact A|]. split; [exact B|]. split; [exact C|exact D]. }
      destruct (indexed a).
      + cbn [bind]. pose proof (C72_pages (found a) Off) as R1.
        destruct (C72_unique h _ _ R1) as [(c1 & l1 & -> & Ru & Nu & Mu & Lu)|[_ L]]; [|lia]. cbn [bind].
        destruct (C72_intersection h _ _ _ _ R Ru) as [(c2 & l2 & -> & R2 & M2 & N2 & L2)|(_ & L & _)]; [|lia]. cbn [bind].
        apply (Fin c2 l2 R2 (N2 Nd Nu)); [lia|]. intros x. rewrite M2, Mu, Fa. reflexivity.
      + destruct R as (Wc & Oc & Cc & Ec). rewrite Ec. destruct create_ok as [W0 E0].
        destruct (fold_filter (holds a) lc create W0 Oc) as (n & -> & Wn & En). cbn [bind]. rewrite E0 in En. cbn [app] in En.
        assert (Lf : (length (filter (holds a) lc) <= length lc)%nat).
        { generalize lc. intros m. induction m as [|y m IHm]; cbn; [lia|]. destruct (holds a y); cbn; lia. }
        destruct (C72_unique h n (elems n) (wf_reads n Wn)) as [(c1 & l1 & -> & Ru & Nu & Mu & Lu)|[_ L]]; [|rewrite En in L; lia]. cbn [bind].
        apply (Fin c1 l1 Ru Nu); [rewrite En in Lu; lia|]. intros x. rewrite Mu, En, filter_In. split; [intros [X Y]|intros [X [_ Y]]; split; assumption].
        split; [exact X|]. split; [apply M, X|exact Y]. }
  intros F1 F2. destruct args as [|a args]; [contradiction|]. cbn [merge bind]. inversion F1 as [|? ? Fa Fr]; subst. inversion F2 as [|? ? La Lr]; subst.
  assert (Off : offsets (found a)) by (apply Forall_forall; intros x X; apply Nz, Fa, X).
  destruct (C72_unique h _ _ (C72_pages (found a) Off)) as [(c1 & l1 & -> & Ru & Nu & Mu & Lu)|[_ L]]; [|lia]. cbn [bind].
  destruct (G args c1 l1 [a] Ru Nu) as (c' & l & A & B & C & D); [lia| |exact Fr|exact Lr|].
  - intros x. rewrite Mu, Fa. split; intros [X Y]; split; try exact X; [constructor; [exact Y|constructor]|inversion Y; assumption].
  - exists c', l. split; [exact A|]. split; [exact B|]. split; [exact C|exact D].
Qed.

(** ** Cases that meet the hypotheses *)
(** 70 offsets go over a page; both ways of making an intersection *)
Definition evens : list Z := map (fun i => 16 * Z.of_nat i) (seq 1 70).
Definition threes : list Z := map (fun i => 24 * Z.of_nat i) (seq 1 70).
Example evens_ok : reads_as (of_list evens) evens /\ length (pages (of_list evens)) = 2%nat.
Proof. split; [apply C72_pages; unfold offsets, evens; apply Forall_forall; intros x X; apply in_map_iff in X as (i & <- & I); apply in_seq in I; lia|vm_compute; reflexivity]. Qed.
Example both : let out a b := match intersect (fun k => k / 8) (of_list a) (of_list b) with Ok c => elems c | _ => [] end in
  out evens threes = map (fun i => 48 * Z.of_nat i) (seq 1 23) /\ out [16; 32; 48] [48; 8; 16] = [16; 48].
Proof. vm_compute. split; reflexivity. Qed.
Definition sample_args : list arg :=
  [mkA true [48; 16; 48; 32] (fun x => existsb (Z.eqb x) [16; 32; 48]); mkA false [16; 32] (fun x => x <? 40);
   mkA true [32; 48; 32] (fun x => 20 <? x)].
Example sample_hypotheses : Forall (fun a => forall x, In x (found a) <-> In x [16; 32; 48] /\ holds a x = true) sample_args.
Proof.
  assert (D : forall x, In x [16; 32; 48] <-> x = 16 \/ x = 32 \/ x = 48) by (intros x; cbn; intuition lia).
  unfold sample_args. apply Forall_cons; [|apply Forall_cons; [|apply Forall_cons; [|apply Forall_nil]]]; intros x; rewrite D; cbn [found holds In].
  - rewrite existsb_in, D. lia.
  - rewrite Z.ltb_lt. lia.
  - rewrite Z.ltb_lt. lia.
Qed.
Example sample_query : match merge (fun k => k) sample_args None with Ok (Some c) => elems c = [32] | _ => False end.
Proof. vm_compute. reflexivity. Qed.

Print Assumptions C72_pages.
Print Assumptions C72_intersection.
Print Assumptions C72_unique.
Print Assumptions C72_query_partial.
