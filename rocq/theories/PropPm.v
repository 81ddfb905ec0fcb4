(** C56: the partners for paramodulation. *)
From Coq Require Import List ZArith Bool Lia.
From Verif Require Import Word64 Terms UnifySpec UnifyModel MatchModel MetaModel BuildModel DeriveModel HashModel HashSpec OrdSpec OrdModel PmModel PmSpec PmBase PmProof.
Import ListNotations.
Open Scope Z_scope.

Section P.
Variable dhash : dblv -> Z.
Variable ltext : Z -> list Z.
Variable word : cst -> Z.
Variable den : Z -> term.
Variable cls : Z -> scl.
Variable fld : Z -> Z -> list nat -> Z.
Variable eqc : cst.
Variables nested backsubsumed : Z -> bool.
Variable answer_lit : term -> bool.
Notation ready := (ready dhash ltext word den cls fld eqc).
Notation give := (give dhash ltext word den cls fld eqc nested backsubsumed answer_lit).
Notation not_excluded o := (not_excluded o nested backsubsumed answer_lit cls).
Notation stored := stored.

Lemma given_cases o h x ok hk kb c rs ap ae n g tag x' ts :
  ready o h x ok hk kb c rs ap ae -> give o n x kb g c rs tag ap ae = Ok (x', ts) ->
  exists used, entered dhash ltext word cls fld eqc o used ((c, rs) :: h) x' /\
    (((o_rewrite_only o = true \/ (o_nonested o = true /\ tag = true)) /\ ts = []) \/
     exists t t', from_all dhash ltext word den cls eqc nested backsubsumed answer_lit o n x' (option_map ix_para kb) g rs = Ok t /\
       into_all dhash ltext den cls nested backsubsumed answer_lit o n x' (option_map ix_eq kb) g rs = Ok t' /\ ts = t ++ t').
Proof.
  intros [(used&He&Hn&Ha) _ _ _] E. unfold PmModel.give in E. apply bind_ok in E as (y&Es&E).
  exists (flat ap ++ flat ae ++ used). 
  assert (Hy : entered dhash ltext word cls fld eqc o (flat ap ++ flat ae ++ used) ((c, rs) :: h) y)
    by exact (e_store _ _ _ _ _ _ _ used h x n c rs ap ae y He Hn Ha Es).
  destruct (o_rewrite_only o || (o_nonested o && tag)) eqn:Eb.
  - injection E as -> <-. split; [exact Hy|]. left. split; [|reflexivity]. apply orb_true_iff in Eb as [Eb|Eb]; [left; exact Eb|].
    right. apply andb_true_iff in Eb. exact Eb.
  - apply bind_ok in E as (t&Et&E). apply bind_ok in E as (t'&Et'&E). injection E as -> <-. split; [exact Hy|]. right. exists t, t'. auto.
Qed.
Lemma stored_in o h ok hk oo c rs : stored o h ok hk oo c rs -> In (c, rs) (h ++ hk).
Proof. intros [[_ H]|[_ H]]; apply in_or_app; [left|right]; exact H. Qed.
Lemma stored_headed o h x ok hk kb c rs ap ae : ready o h x ok hk kb c rs ap ae ->
  forall oo c' rs' i l, stored o ((c, rs) :: h) ok hk oo c' rs' -> literal (cls c') i l -> headed (latom l).
Proof. intros R oo c' rs' i l Hs Hl. apply (r_formed _ _ _ _ _ _ _ _ _ _ _ _ _ _ _ _ _ R c' rs' (stored_in _ _ _ _ _ _ _ Hs) i l Hl). Qed.

(** Equations of the given clause, into the stored clauses and its own copy.  Left out: literals
    after the 256th, and places with numbers over 60000 (see [place]). *)
Theorem C56_from_given_partial o h x ok hk kb c rs ap ae n g tag x' ts i lg left a b oo c' rs' j l q u :
  ready o h x ok hk kb c rs ap ae -> give o n x kb g c rs tag ap ae = Ok (x', ts) ->
  (* the strategy makes such steps with the given clause *)
  o_rewrite_only o = false -> (o_nonested o = true -> tag = false) -> takes_part o g ->
  (o_posunit o = true -> length (cl_lits g) = 1%nat) -> ~ (o_queryfocus o = true /\ o_ordered_only o = true) ->
  (* an equation of it *)
  well_formed g -> literal g i lg -> rs i = true -> equation eqc lg left a b -> usable word (o_ordered_only o) a b ->
  (* a place in a stored clause *)
  stored o ((c, rs) :: h) ok hk oo c' rs' -> takes_part oo (cls c') -> o_rewrite_only oo = false ->
  literal (cls c') j l -> j <= 255 -> (rs' j = true \/ o_queryfocus oo = true) -> place (o_deep oo) (latom l) q u ->
  not_excluded o g c' -> unifiable a u ->
  In (AFrom i left a b c' u (encode_termpath j (number q (latom l)))) ts \/ against word a b u.
Proof.
  intros R E Hw Ht Htp Hp Hq Hg Hl Hr He Hu Hs Htp' Hw' Hlj J Hr' Hpl Hex Hun.
  destruct (given_cases _ _ _ _ _ _ _ _ _ _ _ _ _ _ _ R E) as (used&Hx&[[[C|[C D]] _]|(t&t'&Et&_&->)]).
  - congruence.
  - specialize (Ht C). congruence.
  - destruct (from_complete dhash ltext word den cls fld eqc nested backsubsumed answer_lit o ok ((c, rs) :: h) hk used x' kb Hx
      (r_kb _ _ _ _ _ _ _ _ _ _ _ _ _ _ _ _ _ R) (r_read _ _ _ _ _ _ _ _ _ _ _ _ _ _ _ _ _ R) (stored_headed _ _ _ _ _ _ _ _ _ _ R)
      n g rs t i lg left a b oo c' rs' j l q u Et Hl Hr He (proj2 (Hg i lg Hl)) Hu Htp Hp Hq Hs Htp' Hw' Hlj J Hr' Hpl Hex Hun) as [A|A].
    + left. apply in_or_app. left. exact A.
    + right. exact A.
Qed.
(** Stored equations, into the given clause. *)
Theorem C56_into_given_partial o h x ok hk kb c rs ap ae n g tag x' ts i lg q u oo c' rs' j l left a b :
  ready o h x ok hk kb c rs ap ae -> give o n x kb g c rs tag ap ae = Ok (x', ts) ->
  o_rewrite_only o = false -> (o_nonested o = true -> tag = false) -> takes_part o g ->
  (* a place in the given clause *)
  well_formed g -> literal g i lg -> i <= 255 -> rs i = true -> place (o_deep o) (latom lg) q u ->
  (* an equation of a stored clause *)
  stored o ((c, rs) :: h) ok hk oo c' rs' -> takes_part oo (cls c') -> o_rewrite_only oo = false ->
  ~ (o_queryfocus oo = true /\ o_ordered_only oo = true) ->
  (o_posunit oo = true -> length (cl_lits (cls c')) = 1%nat) ->
  (o_posunit o = true -> match cls c' with SFact _ _ => True | r => nonans answer_lit r <= 1 end) ->
  literal (cls c') j l -> j <= 255 -> (rs' j = true \/ o_queryfocus oo = true) ->
  equation eqc l left a b -> usable word (o_ordered_only oo) a b ->
  not_excluded o g c' -> unifiable u a ->
  In (AInto (encode_termpath i (number q (latom lg))) u c' j left a b) ts.
Proof.
  intros R E Hw Ht Htp Hg Hl I Hr Hpl Hs Htp' Hw' Hq Hp1 Hp2 Hlj J Hr' He Hu Hex Hun.
  destruct (given_cases _ _ _ _ _ _ _ _ _ _ _ _ _ _ _ R E) as (used&Hx&[[[C|[C D]] _]|(t&t'&_&Et&->)]).
  - congruence.
  - specialize (Ht C). congruence.
  - apply in_or_app. right.
    exact (into_complete dhash ltext word den cls fld eqc nested backsubsumed answer_lit o ok ((c, rs) :: h) hk used x' kb Hx
      (r_kb _ _ _ _ _ _ _ _ _ _ _ _ _ _ _ _ _ R) (r_read _ _ _ _ _ _ _ _ _ _ _ _ _ _ _ _ _ R) (stored_headed _ _ _ _ _ _ _ _ _ _ R)
      n g rs t' i lg q u oo c' rs' j l left a b Et Hl I Hr (proj2 (Hg i lg Hl)) Hpl Htp Hs Htp' Hw' Hlj J Hr' He Hu Hq Hp1 Hp2 Hex Hun).
Qed.

(** Every inference made is one of an equation and a place that unify. *)
Definition genuine (o : popts) (h : list (Z * (Z -> bool))) (ok : popts) (hk : list (Z * (Z -> bool))) (g : scl) (rs : Z -> bool) (t : attempt) : Prop :=
  (exists i lg left a b oo c rs' j l q u,
     t = AFrom i left a b c u (encode_termpath j (number q (latom l))) /\
     literal g i lg /\ rs i = true /\ equation eqc lg left a b /\ not_var a /\
     stored o h ok hk oo c rs' /\ literal (cls c) j l /\ j <= 255 /\ (rs' j = true \/ o_queryfocus oo = true) /\
     place (o_deep oo) (latom l) q u /\ unifiable a u) \/
  (exists i lg q u oo c rs' j l left a b,
     t = AInto (encode_termpath i (number q (latom lg))) u c j left a b /\
     literal g i lg /\ i <= 255 /\ rs i = true /\ place (o_deep o) (latom lg) q u /\
     stored o h ok hk oo c rs' /\ literal (cls c) j l /\ equation eqc l left a b /\ not_var a /\
     (o_queryfocus oo = false -> usable word (o_ordered_only oo) a b) /\ unifiable u a).
Theorem C56_attempts_partial o h x ok hk kb c rs ap ae n g tag x' ts t :
  ready o h x ok hk kb c rs ap ae -> well_formed g ->
  (forall c' rs', In (c', rs') (((c, rs) :: h) ++ hk) -> (length (cl_lits (cls c')) <= 256)%nat) ->
  give o n x kb g c rs tag ap ae = Ok (x', ts) -> In t ts -> genuine o ((c, rs) :: h) ok hk g rs t.
Proof.
  intros R Hg Hlen E Hi. destruct (given_cases _ _ _ _ _ _ _ _ _ _ _ _ _ _ _ R E) as (used&Hx&[[_ ->]|(t1&t2&E1&E2&->)]); [destruct Hi|].
  pose proof (r_kb _ _ _ _ _ _ _ _ _ _ _ _ _ _ _ _ _ R) as Hk. pose proof (r_read _ _ _ _ _ _ _ _ _ _ _ _ _ _ _ _ _ R) as Hf.
  pose proof (stored_headed _ _ _ _ _ _ _ _ _ _ R) as Hh.
  apply in_app_or in Hi as [Hi|Hi].
  - left. exact (from_sound dhash ltext word den cls fld eqc nested backsubsumed answer_lit o ok ((c, rs) :: h) hk used x' kb Hx Hk Hf Hh n g rs t1 t E1 Hi).
  - right. refine (into_sound dhash ltext word den cls fld eqc nested backsubsumed answer_lit o ok ((c, rs) :: h) hk used x' kb Hx Hk Hf n g rs t2 t _ _ E2 Hi).
    + intros i l Hl. exact (proj2 (Hg i l Hl)).
    + intros oo c' rs' Hs. apply (Hlen c' rs'), (stored_in _ _ _ _ _ _ _ Hs).
Qed.

(** The step ends, given memory, and no record is missed and no bad key met. *)
Theorem C56_ends_partial o h x ok hk kb c rs g :
  (forall d, - 2 ^ 31 <= dhash d < 2 ^ 31) -> well_formed g -> good_symbols dhash ltext g -> good_symbols dhash ltext (cls c) ->
  (forall c' rs', In (c', rs') (((c, rs) :: h) ++ hk) -> (length (cl_lits (cls c')) <= 256)%nat) ->
  (exists used, entered dhash ltext word cls fld eqc o used h x) -> well_formed (cls c) ->
  exists k, forall tag ap ae, (k <= length ap)%nat -> (k <= length ae)%nat -> ready o h x ok hk kb c rs ap ae ->
    exists n0 r, forall n, (n0 <= n)%nat -> give o n x kb g c rs tag ap ae = Ok r.
Proof.
  intros Hd Hg Hs Hsc Hlen [used0 Hx0] Hwc.
  destruct (store_settles dhash ltext word den cls fld eqc nested backsubsumed answer_lit o h used0 x Hx0 Hd c rs Hwc Hsc) as [k Hk]. exists k.
  intros tag ap ae La Le R. destruct (r_own _ _ _ _ _ _ _ _ _ _ _ _ _ _ _ _ _ R) as (used&Hx&Hn&Ha).
  pose proof (r_kb _ _ _ _ _ _ _ _ _ _ _ _ _ _ _ _ _ R) as Hkb.
  change (settles (fun n => give o n x kb g c rs tag ap ae)). unfold PmModel.give.
  apply settles_bind; [apply (Hk ap ae La Le); intros a Hin; apply (Ha a Hin)|]. intros y [n En].
  destruct (o_rewrite_only o || (o_nonested o && tag)); [apply settles_ok|].
  pose proof (e_store _ _ _ _ _ _ _ used h x n c rs ap ae y Hx Hn Ha En) as Hy.
  apply (settles_bind (fun n => from_all dhash ltext word den cls eqc nested backsubsumed answer_lit o n y (option_map ix_para kb) g rs)).
  - exact (from_settles dhash ltext word den cls fld eqc nested backsubsumed answer_lit o ok ((c, rs) :: h) hk _ y kb Hy Hkb Hd g rs Hg Hs).
  - intros t _. apply (settles_bind (fun n => into_all dhash ltext den cls nested backsubsumed answer_lit o n y (option_map ix_eq kb) g rs)).
    + refine (into_settles dhash ltext word den cls fld eqc nested backsubsumed answer_lit o ok ((c, rs) :: h) hk _ y kb Hy Hkb Hd g rs Hg Hs _).
      intros oo c' rs' Hst. apply (Hlen c' rs'), (stored_in _ _ _ _ _ _ _ Hst).
    + intros t' _. apply settles_ok.
Qed.
End P.

(** * Examples *)
Definition nm (x : Z) : list Z := if x =? 99 then [113; 100; 108; 107; 104; 111; 121] else [x].
Definition wd (c : cst) : Z := match c with CLong x => x | _ => 0 end.
Definition eqs : cst := CLong 61.
Definition K (x : Z) : term := TCst (CLong x).
Definition F1 (f : Z) (a : term) : term := TRec [K f; a].
Definition F2 (f : Z) (a b : term) : term := TRec [K f; a; b].
Definition EQ (a b : term) : term := TRec [TCst eqs; a; b].
Definition plit (a : term) : clit := {| lmeta := 4; lword := 0; latom := a |}.
Definition plain : popts :=
  {| o_hyper := false; o_relaxed := false; o_queryfocus := false; o_rewrite_only := false; o_posunit := false;
     o_ordered_only := false; o_deep := false; o_nonested := false; o_backsubsume := true; o_arglen := 0; o_shortlen := 0 |}.
(** Clause 1: f(a)=b.  Clause 2: p(g(f(X))).  Clause 3: f(X,Y)=f(Y,X).  Clause 4: p(f(b,a)).
    Clause 5: 256 times q(c,d), then f(a)=b.  Clause 6: p(f(a)).  Clause 7: 256 times q(c,d), then
    p(f(a)).  Clause 8: p(qdlkhoy). *)
Definition at1 := EQ (F1 2 (K 3)) (K 4).
Definition at2 := F1 5 (F1 6 (F1 2 (TVar 1))).
Definition at3 := EQ (F2 2 (TVar 1) (TVar 2)) (F2 2 (TVar 2) (TVar 1)).
Definition at4 := F1 5 (F2 2 (K 4) (K 3)).
Definition atq := F2 7 (K 8) (K 9).
Definition at6 := F1 5 (F1 2 (K 3)).
Definition at8 := F1 5 (K 99).
Definition ecl (c : Z) : scl :=
  match c with
  | 1 => SFact 0 at1
  | 2 => SRule [plit at2]
  | 3 => SFact 0 at3
  | 4 => SRule [plit at4]
  | 5 => SRule (repeat (plit atq) 256 ++ [plit at1])
  | 6 => SRule [plit at6]
  | 7 => SRule (repeat (plit atq) 256 ++ [plit at6])
  | _ => SRule [plit at8]
  end.
Definition code (q : list nat) : Z := fold_left (fun a k => a * 4 + Z.of_nat k) q 1.
Definition efld (c i : Z) (q : list nat) : Z := c * 10000 + (if i <? 256 then 0 else 5000) + code q.
Fixpoint paths (t : term) : list (list nat * term) :=
  ([], t) :: match t with
             | TRec (_ :: args) =>
                 (fix go (k : nat) (l : list term) := match l with [] => [] | a :: l => map (fun e => (k :: fst e, snd e)) (paths a) ++ go (S k) l end) 1%nat args
             | _ => []
             end.
Definition etable : list (Z * term) :=
  flat_map (fun ci => match nth_error (cl_lits (ecl (fst ci))) (Z.to_nat (snd ci)) with
                      | Some l => map (fun e => (efld (fst ci) (snd ci) (fst e), snd e)) (paths (latom l))
                      | None => [] end)
    [(1, 0); (2, 0); (3, 0); (4, 0); (5, 0); (5, 256); (6, 0); (7, 0); (7, 256); (8, 0)].
Definition eden (w : Z) : term := match find (fun e => fst e =? w) etable with Some e => snd e | None => TVar 0 end.

Lemma efields c (rs : Z -> bool) (h : list (Z * (Z -> bool))) : (forall e, In e h -> 1 <= fst e <= 8) -> In (c, rs) h -> forall i l q t,
  literal (ecl c) i l -> sub q (latom l) = Some t -> eden (efld c i q) = t.
Proof.
  intros Hh Hin i l q t [Hi Hl] Hs. specialize (Hh _ Hin). cbn [fst] in Hh. clear Hin h.
  assert (C : c = 1 \/ c = 2 \/ c = 3 \/ c = 4 \/ c = 5 \/ c = 6 \/ c = 7 \/ c = 8) by lia.
  assert (Sh : (i < 256 /\ (In (c, latom l) [(1, at1); (2, at2); (3, at3); (4, at4); (5, atq); (6, at6); (7, atq); (8, at8)])) \/
               (256 <= i /\ In (c, latom l) [(5, at1); (7, at6)])).
  { assert (One : forall y (d : Z), nth_error [plit y] (Z.to_nat i) = Some l -> i < 256 /\ latom l = y).
    { intros y _ E. destruct (Z.to_nat i) as [|[|k]] eqn:Ei; cbn in E; try discriminate. injection E as <-. split; [lia|reflexivity]. }
    assert (Long : forall y, nth_error (repeat (plit atq) 256 ++ [plit y]) (Z.to_nat i) = Some l -> (i < 256 /\ latom l = atq) \/ (256 <= i /\ latom l = y)).
    { intros y E. destruct (Nat.ltb_spec (Z.to_nat i) 256) as [L|L].
      - rewrite nth_error_app1 in E by (rewrite repeat_length; exact L). left. split; [lia|]. apply nth_error_In, repeat_spec in E. subst l. reflexivity.
      - rewrite nth_error_app2 in E by (rewrite repeat_length; exact L). right. split; [lia|]. rewrite repeat_length in E.
        destruct (Z.to_nat i - 256)%nat as [|[|k]]; cbn in E; try discriminate. injection E as <-. reflexivity. }
    destruct C as [->|[->|[->|[->|[->|[->|[->| ->]]]]]]]; cbn [ecl cl_lits] in Hl.
    - destruct (One at1 0 Hl) as [A ->]. left. split; [exact A|]. cbn; auto.
    - destruct (One at2 0 Hl) as [A ->]. left. split; [exact A|]. cbn; auto.
    - destruct (One at3 0 Hl) as [A ->]. left. split; [exact A|]. cbn; auto.
    - destruct (One at4 0 Hl) as [A ->]. left. split; [exact A|]. cbn; auto.
    - destruct (Long at1 Hl) as [[A ->]|[A ->]]; [left|right]; (split; [exact A|]); cbn; auto 10.
    - destruct (One at6 0 Hl) as [A ->]. left. split; [exact A|]. cbn; auto 10.
    - destruct (Long at6 Hl) as [[A ->]|[A ->]]; [left|right]; (split; [exact A|]); cbn; auto 10.
    - destruct (One at8 0 Hl) as [A ->]. left. split; [exact A|]. cbn; auto 10. }
  unfold efld. destruct Sh as [[Li Sh]|[Li Sh]]; [rewrite (proj2 (Z.ltb_lt i 256) Li)|rewrite (proj2 (Z.ltb_ge i 256) Li)]; clear Hl Hi Li C Hh;
    cbn [In] in Sh; repeat (destruct Sh as [Sh|Sh]; [|]); try contradiction; injection Sh as <- Sh; rewrite <- Sh in Hs; clear Sh l.
  all: repeat (match type of Hs with sub ?q0 _ = _ => destruct q0 as [|[|[|[|k]]] q0]; cbn [sub at1 at2 at3 at4 atq at6 at8 EQ F1 F2 K nth_error] in Hs; try discriminate;
    try (injection Hs as <-; vm_compute; reflexivity) end; try (destruct k; discriminate)).
Qed.
Lemma eformed c : 1 <= c <= 8 -> well_formed (ecl c).
Proof.
  intros Hc i l [_ Hl]. apply nth_error_In in Hl.
  assert (A : In (latom l) [at1; at2; at3; at4; atq; at6; at8]).
  { assert (C : c = 1 \/ c = 2 \/ c = 3 \/ c = 4 \/ c = 5 \/ c = 6 \/ c = 7 \/ c = 8) by lia.
    assert (One : forall y, In l [plit y] -> latom l = y) by (intros y [<-|[]]; reflexivity).
    assert (Long : forall y, In l (repeat (plit atq) 256 ++ [plit y]) -> latom l = atq \/ latom l = y).
    { intros y E. apply in_app_or in E as [E|E]; [left; apply repeat_spec in E; subst l; reflexivity|right; apply One, E]. }
    destruct C as [->|[->|[->|[->|[->|[->|[->| ->]]]]]]]; cbn [ecl cl_lits] in Hl.
    - rewrite (One at1 Hl). cbn; auto 10.
    - rewrite (One at2 Hl). cbn; auto 10.
    - rewrite (One at3 Hl). cbn; auto 10.
    - rewrite (One at4 Hl). cbn; auto 10.
    - destruct (Long at1 Hl) as [-> | ->]; cbn; auto 10.
    - rewrite (One at6 Hl). cbn; auto 10.
    - destruct (Long at6 Hl) as [-> | ->]; cbn; auto 10.
    - rewrite (One at8 Hl). cbn; auto 10. }
  cbn [In] in A. repeat (destruct A as [<-|A]; [split; [reflexivity|cbn; auto 20]|]). destruct A.
Qed.
Fixpoint ups (k : nat) (s : Z) : list (Z * Z) := match k with O => [] | S k => (s, s + 1) :: ups k (s + 2) end.
Lemma ups_in k : forall s a, In a (flat (ups k s)) -> s <= a < s + 2 * Z.of_nat k.
Proof.
  induction k as [|k IH]; intros s a H; cbn [ups flat flat_map] in H; [destruct H|]. fold (flat (ups k (s + 2))) in H.
  cbn [List.app In fst snd] in H. destruct H as [<-|[<-|H]]; [lia|lia|]. apply IH in H. lia.
Qed.
Lemma ups_nodup k : forall s, NoDup (flat (ups k s)).
Proof.
  induction k as [|k IH]; intros s; cbn [ups flat flat_map]; [constructor|]. fold (flat (ups k (s + 2))). cbn [List.app fst snd].
  constructor; [|constructor; [|apply IH]].
  - intros [H|H]; [lia|]. apply ups_in in H. lia.
  - intros H. apply ups_in in H. lia.
Qed.
Lemma ups_length k : forall s, length (ups k s) = k.
Proof. induction k as [|k IH]; intros s; cbn [ups length]; [reflexivity|]. rewrite IH. reflexivity. Qed.
Lemma ups_two k s s' : 1 <= s -> s + 2 * Z.of_nat k <= s' -> NoDup (flat (ups k s) ++ flat (ups k s')) /\
  forall a, In a (flat (ups k s) ++ flat (ups k s')) -> s <= a.
Proof.
  intros Hs Hs'. split.
  - assert (G : forall l l' : list Z, NoDup l -> NoDup l' -> (forall a, In a l -> ~ In a l') -> NoDup (l ++ l')).
    { induction l as [|a l IH]; intros l' N N' D; cbn [List.app]; [exact N'|]. inversion N as [|? ? N1 N2]; subst. constructor.
      - intros C. apply in_app_or in C as [C|C]; [contradiction|]. apply (D a (or_introl eq_refl) C).
      - apply IH; [exact N2|exact N'|]. intros b Hb. apply D. right. exact Hb. }
    apply G; [apply ups_nodup|apply ups_nodup|]. intros a H1 H2. apply ups_in in H1, H2. lia.
  - intros a H. apply in_app_or in H as [H|H]; apply ups_in in H; lia.
Qed.
Notation eentered := (entered (fun _ => 0) nm wd ecl efld eqs plain).
Notation eready := (ready (fun _ => 0) nm wd eden ecl efld eqs plain).
Notation egive := (give (fun _ => 0) nm wd eden ecl efld eqs (fun _ => false) (fun _ => false) (fun _ => false) plain).
Notation estore := (store (fun _ => 0) nm wd ecl efld eqs plain).
Definition nonode (a : Z) : node := {| n_term := 0; n_cl := 0; n_path := 0; n_next := 0 |}.
Definition start : pidx := {| ix_para := new_hlist 1000000 nonode; ix_eq := new_hlist 1000000 nonode |}.
Definition got {A} (d : A) (r : res A) : A := match r with Ok a => a | _ => d end.
(** After entering clause [c], with literals [rs] selected. *)
Definition after (c : Z) (rs : Z -> bool) : pidx := got start (estore 50 start c rs (ups 8 1) (ups 8 100)).
Lemma after_ready c rs c' rs' k : 1 <= c <= 8 -> 1 <= c' <= 8 -> estore 50 start c rs (ups 8 1) (ups 8 100) = Ok (after c rs) ->
  eready [(c, rs)] (after c rs) plain [] None c' rs' (ups k 1000) (ups k (1000 + 2 * Z.of_nat k)).
Proof.
  intros Hc Hc' E. destruct (ups_two 8 1 100 ltac:(lia) ltac:(lia)) as [N1 N2]. destruct (ups_two k 1000 (1000 + 2 * Z.of_nat k) ltac:(lia) ltac:(lia)) as [M1 M2].
  constructor.
  - exists (flat (ups 8 1) ++ flat (ups 8 100) ++ []). split; [|split; [exact M1|]].
    + apply (e_store _ _ _ _ _ _ _ [] [] start 50 c rs (ups 8 1) (ups 8 100) (after c rs)); [apply e_new|exact N1| |exact E].
      intros a Ha. apply N2 in Ha. split; [lia|intros []].
    + intros a Ha. apply M2 in Ha. split; [lia|]. intros H. rewrite app_nil_r in H. apply in_app_or in H as [H|H]; apply ups_in in H; lia.
  - reflexivity.
  - intros c0 rs0 i l q t Hin. apply (efields c0 rs0 (((c', rs') :: [(c, rs)]) ++ [])); [|exact Hin].
    intros e [<-|[<-|[]]]; cbn [fst]; lia.
  - intros c0 rs0 [H|[H|[]]]; injection H as <- _; apply eformed; assumption.
Qed.
Definition all1 (i : Z) : bool := true.
Definition last1 (i : Z) : bool := i =? 256.
Definition tried (r : res (pidx * list attempt)) : option (list attempt) := match r with Ok (_, t) => Some t | _ => None end.
Lemma tried_ok r ts : tried r = Some ts -> exists x, r = Ok (x, ts).
Proof. destruct r as [[x t]| | | |]; try discriminate. intros E. injection E as ->. exists x. reflexivity. Qed.
Ltac entered_ok := vm_compute; reflexivity.
Lemma ok1 : estore 50 start 1 all1 (ups 8 1) (ups 8 100) = Ok (after 1 all1). Proof. entered_ok. Qed.
Lemma ok2 : estore 50 start 2 all1 (ups 8 1) (ups 8 100) = Ok (after 2 all1). Proof. entered_ok. Qed.
Lemma ok3 : estore 50 start 3 all1 (ups 8 1) (ups 8 100) = Ok (after 3 all1). Proof. entered_ok. Qed.
Lemma ok4 : estore 50 start 4 all1 (ups 8 1) (ups 8 100) = Ok (after 4 all1). Proof. entered_ok. Qed.
Lemma ok5 : estore 50 start 5 last1 (ups 8 1) (ups 8 100) = Ok (after 5 last1). Proof. entered_ok. Qed.
Lemma ok7 : estore 50 start 7 last1 (ups 8 1) (ups 8 100) = Ok (after 7 last1). Proof. entered_ok. Qed.
(** f(a)=b is stored and p(g(f(X))) is given, and the other way round. *)
Example C56_ex_into : eready [(1, all1)] (after 1 all1) plain [] None 2 all1 (ups 20 1000) (ups 20 1040) /\
  tried (egive 50 (after 1 all1) None (ecl 2) 2 all1 false (ups 20 1000) (ups 20 1040))
  = Some [AInto (encode_termpath 0 2) (F1 2 (TVar 1)) 1 0 true (F1 2 (K 3)) (K 4)].
Proof. split; [apply (after_ready 1 all1 2 all1 20); [lia|lia|exact ok1]|]. vm_compute. reflexivity. Qed.
Example C56_ex_from : eready [(2, all1)] (after 2 all1) plain [] None 1 all1 (ups 20 1000) (ups 20 1040) /\
  tried (egive 50 (after 2 all1) None (ecl 1) 1 all1 false (ups 20 1000) (ups 20 1040))
  = Some [AFrom 0 true (F1 2 (K 3)) (K 4) 1 (F1 2 (K 3)) (encode_termpath 0 1);
          AFrom 0 true (F1 2 (K 3)) (K 4) 2 (F1 2 (TVar 1)) (encode_termpath 0 2);
          AInto (encode_termpath 0 1) (F1 2 (K 3)) 1 0 true (F1 2 (K 3)) (K 4)].
Proof. split; [apply (after_ready 2 all1 1 all1 20); [lia|lia|exact ok2]|]. vm_compute. reflexivity. Qed.

(** The other hypotheses hold for them, too. *)
Example C56_ex_pair : takes_part plain (ecl 1) /\ takes_part plain (ecl 2) /\ well_formed (ecl 1) /\ well_formed (ecl 2) /\
  literal (ecl 1) 0 (plit at1) /\ equation eqs (plit at1) true (F1 2 (K 3)) (K 4) /\ usable wd false (F1 2 (K 3)) (K 4) /\
  literal (ecl 2) 0 (plit at2) /\ place false at2 [1%nat; 1%nat] (F1 2 (TVar 1)) /\ number [1%nat; 1%nat] at2 = 2 /\
  not_excluded plain (fun _ => false) (fun _ => false) (fun _ => false) ecl (ecl 1) 2 /\ unifiable (F1 2 (K 3)) (F1 2 (TVar 1)).
Proof.
  split; [discriminate|]. split; [discriminate|]. split; [apply eformed; lia|]. split; [apply eformed; lia|]. split; [split; [lia|reflexivity]|].
  split; [split; [reflexivity|exists []; reflexivity]|]. split.
  { split; [exact I|]. split; [|discriminate]. intros [k A]. destruct k as [|[|[|[|k]]]]; vm_compute in A; discriminate. }
  split; [split; [lia|reflexivity]|]. split; [constructor; [reflexivity|discriminate|exact I|discriminate|vm_compute; discriminate]|].
  split; [reflexivity|]. split; [|exists (fun _ => K 3); reflexivity].
  split; [discriminate|]. split; [reflexivity|]. split; intros C; exfalso; apply C; reflexivity.
Qed.

(** * Where the full statements fail *)
(** Clauses of more than 256 literals: the number of the literal with the equation is cut, another
    literal is taken for it, and a side of no equation is put in. *)
Theorem C56_long_clause_refuted :
  ~ (forall dhash ltext word den cls fld eqc nested backsubsumed answer_lit o h x ok hk kb c rs ap ae n g tag x' ts t,
      ready dhash ltext word den cls fld eqc o h x ok hk kb c rs ap ae -> well_formed g ->
      give dhash ltext word den cls fld eqc nested backsubsumed answer_lit o n x kb g c rs tag ap ae = Ok (x', ts) -> In t ts ->
      genuine word cls eqc o ((c, rs) :: h) ok hk g rs t).
Proof.
  intros H. assert (E : tried (egive 50 (after 5 last1) None (ecl 6) 6 all1 false (ups 20 1000) (ups 20 1040))
    = Some [AInto (encode_termpath 0 1) (F1 2 (K 3)) 5 0 true (F1 2 (K 3)) (K 9)]) by (vm_compute; reflexivity).
  apply tried_ok in E as [x' E].
  destruct (H _ _ _ _ _ _ _ _ _ _ _ _ _ _ _ _ _ _ _ _ _ _ _ _ _ _ (after_ready 5 last1 6 all1 20 ltac:(lia) ltac:(lia) ok5) (eformed 6 ltac:(lia)) E (or_introl eq_refl))
    as [(i&lg&left&a&b&oo&c&rs'&j&l&q&u&A&_)|(i&lg&q&u&oo&c&rs'&j&l&left&a&b&A&_&_&_&_&_&[_ Hl]&(_&rest&He)&_)]; [discriminate|].
  injection A as _ _ <- <- <- _ _. cbn [ecl cl_lits Z.to_nat repeat List.app nth_error] in Hl. injection Hl as <-. cbn in He. injection He as He. discriminate.
Qed.
(** Literals after the 256th of a stored clause are not found. *)
Theorem C56_late_literal_refuted :
  ~ (forall dhash ltext word den cls fld eqc nested backsubsumed answer_lit o h x ok hk kb c rs ap ae n g tag x' ts i lg left a b oo c' rs' j l q u,
      ready dhash ltext word den cls fld eqc o h x ok hk kb c rs ap ae ->
      give dhash ltext word den cls fld eqc nested backsubsumed answer_lit o n x kb g c rs tag ap ae = Ok (x', ts) ->
      o_rewrite_only o = false -> (o_nonested o = true -> tag = false) -> takes_part o g ->
      (o_posunit o = true -> length (cl_lits g) = 1%nat) -> ~ (o_queryfocus o = true /\ o_ordered_only o = true) ->
      well_formed g -> literal g i lg -> rs i = true -> equation eqc lg left a b -> usable word (o_ordered_only o) a b ->
      stored o ((c, rs) :: h) ok hk oo c' rs' -> takes_part oo (cls c') -> o_rewrite_only oo = false ->
      literal (cls c') j l -> (rs' j = true \/ o_queryfocus oo = true) -> place (o_deep oo) (latom l) q u ->
      not_excluded o nested backsubsumed answer_lit cls g c' -> unifiable a u ->
      (exists path, In (AFrom i left a b c' u path) ts) \/ against word a b u).
Proof.
  intros H. assert (E : tried (egive 50 (after 7 last1) None (ecl 1) 1 all1 false (ups 20 1000) (ups 20 1040))
    = Some [AFrom 0 true (F1 2 (K 3)) (K 4) 1 (F1 2 (K 3)) (encode_termpath 0 1);
            AInto (encode_termpath 0 1) (F1 2 (K 3)) 1 0 true (F1 2 (K 3)) (K 4)]) by (vm_compute; reflexivity).
  apply tried_ok in E as [x' E].
  destruct (H _ _ _ _ _ _ _ _ _ _ _ _ _ _ _ _ _ _ _ _ _ _ _ _ _ 0 (plit at1) true (F1 2 (K 3)) (K 4) plain 7 last1 256 (plit at6) [1%nat] (F1 2 (K 3))
    (after_ready 7 last1 1 all1 20 ltac:(lia) ltac:(lia) ok7) E) as [[path A]|(s&_&[k A])].
  - reflexivity.
  - discriminate.
  - intros C. discriminate C.
  - discriminate.
  - intros [C _]. discriminate C.
  - apply eformed. lia.
  - split; [lia|reflexivity].
  - reflexivity.
  - split; [reflexivity|]. exists []. reflexivity.
  - split; [exact I|]. split.
    + intros [k A]. destruct k as [|[|[|[|k]]]]; vm_compute in A; discriminate.
    + intros C. discriminate C.
  - left. split; [reflexivity|]. right. left. reflexivity.
  - intros C. discriminate C.
  - reflexivity.
  - split; [lia|]. reflexivity.
  - left. reflexivity.
  - constructor; [reflexivity|discriminate|exact I|discriminate|vm_compute; discriminate].
  - split; [|split; [|split]].
    + intros _. reflexivity.
    + intros _. reflexivity.
    + intros C. exfalso. apply C. reflexivity.
    + intros C. exfalso. apply C. reflexivity.
  - exists TVar. reflexivity.
  - destruct A as [A|[A|[]]]; discriminate.
  - destruct k as [|[|[|[|k]]]]; vm_compute in A; discriminate.
Qed.
(** What is tried depends on which of two clauses is given last. *)
Theorem C56_order_refuted :
  ~ (forall dhash ltext word den cls fld eqc nested backsubsumed answer_lit o c1 rs1 c2 rs2 x1 x2 ap ae n x1' x2' ts ts' path u j left a b,
      ready dhash ltext word den cls fld eqc o [(c1, rs1)] x1 o [] None c2 rs2 ap ae ->
      ready dhash ltext word den cls fld eqc o [(c2, rs2)] x2 o [] None c1 rs1 ap ae ->
      give dhash ltext word den cls fld eqc nested backsubsumed answer_lit o n x1 None (cls c2) c2 rs2 false ap ae = Ok (x1', ts) ->
      give dhash ltext word den cls fld eqc nested backsubsumed answer_lit o n x2 None (cls c1) c1 rs1 false ap ae = Ok (x2', ts') ->
      In (AInto path u c1 j left a b) ts -> In (AFrom j left a b c2 u path) ts').
Proof.
  intros H. assert (E : tried (egive 50 (after 3 all1) None (ecl 4) 4 all1 false (ups 20 1000) (ups 20 1040))
    = Some [AInto (encode_termpath 0 1) (F2 2 (K 4) (K 3)) 3 0 false (F2 2 (TVar 2) (TVar 1)) (F2 2 (TVar 1) (TVar 2));
            AInto (encode_termpath 0 1) (F2 2 (K 4) (K 3)) 3 0 true (F2 2 (TVar 1) (TVar 2)) (F2 2 (TVar 2) (TVar 1))]) by (vm_compute; reflexivity).
  apply tried_ok in E as [x1 E].
  assert (E' : exists ts, tried (egive 50 (after 4 all1) None (ecl 3) 3 all1 false (ups 20 1000) (ups 20 1040)) = Some ts /\
    forallb (fun t => match t with AFrom _ _ _ _ c _ _ => negb (c =? 4) | _ => true end) ts = true) by (eexists; split; vm_compute; reflexivity).
  destruct E' as (ts&E'&Hts). apply tried_ok in E' as [x2 E'].
  pose proof (H _ _ _ _ _ _ _ _ _ _ _ _ _ _ _ _ _ _ _ _ _ _ _ _ _ _ _ _ _ _
    (after_ready 3 all1 4 all1 20 ltac:(lia) ltac:(lia) ok3) (after_ready 4 all1 3 all1 20 ltac:(lia) ltac:(lia) ok4) E E' (or_introl eq_refl)) as A.
  rewrite forallb_forall in Hts. specialize (Hts _ A). discriminate.
Qed.
(** A symbol whose hash is the smallest int ends the program. *)
Theorem C56_bad_key_refuted :
  ~ (forall dhash ltext word den cls fld eqc nested backsubsumed answer_lit o h x ok hk kb c rs g,
      (forall d, - 2 ^ 31 <= dhash d < 2 ^ 31) -> well_formed g ->
      (forall c' rs', In (c', rs') (((c, rs) :: h) ++ hk) -> (length (cl_lits (cls c')) <= 256)%nat) ->
      (exists used, entered dhash ltext word cls fld eqc o used h x) -> well_formed (cls c) ->
      exists k, forall tag ap ae, (k <= length ap)%nat -> (k <= length ae)%nat -> ready dhash ltext word den cls fld eqc o h x ok hk kb c rs ap ae ->
        exists n0 r, forall n, (n0 <= n)%nat -> give dhash ltext word den cls fld eqc nested backsubsumed answer_lit o n x kb g c rs tag ap ae = Ok r).
Proof.
  intros H. destruct (H (fun _ => 0) nm wd eden ecl efld eqs (fun _ => false) (fun _ => false) (fun _ => false) plain [(1, all1)] (after 1 all1) plain [] None 8 all1 (ecl 8)) as [k Hk].
  - intros d. lia.
  - apply eformed. lia.
  - intros c' rs' [E|[E|[]]]; injection E as <- _; cbn; lia.
  - destruct (r_own _ _ _ _ _ _ _ _ _ _ _ _ _ _ _ _ _ (after_ready 1 all1 8 all1 0 ltac:(lia) ltac:(lia) ok1)) as (used&A&_). exists used. exact A.
  - apply eformed. lia.
  - destruct (Hk false (ups (S k) 1000) (ups (S k) (1000 + 2 * Z.of_nat (S k)))) as (n0&r&E).
    + rewrite ups_length. lia.
    + rewrite ups_length. lia.
    + apply after_ready; [lia|lia|exact ok1].
    + specialize (E n0 (le_n n0)).
      assert (X : forall ae, egive n0 (after 1 all1) None (ecl 8) 8 all1 false (ups (S k) 1000) ae = Exit).
      { intros ae. unfold PmModel.give. replace (estore n0 (after 1 all1) 8 all1 (ups (S k) 1000) ae) with (@Exit pidx); [reflexivity|].
        symmetry. cbn [ups]. generalize (ups k (1000 + 2)). intros l. vm_compute. reflexivity. }
      rewrite X in E. discriminate.
Qed.

Print Assumptions C56_from_given_partial.
Print Assumptions C56_into_given_partial.
Print Assumptions C56_attempts_partial.
Print Assumptions C56_ends_partial.
Print Assumptions C56_long_clause_refuted.
Print Assumptions C56_late_literal_refuted.
Print Assumptions C56_order_refuted.
Print Assumptions C56_bad_key_refuted.
