(** Proofs about propositional instances. *)
From Coq Require Import List ZArith Bool Lia.
From Verif Require Import Word64 Terms MatchModel MatchProof HashModel SubsumeSpec PpModel PpSpec.
Import ListNotations.
Open Scope Z_scope.

Definition gr (g : cst) (t : term) : term := app (fun _ => TCst g) t.

Lemma grounded_loop_iff : forall xg yg xs ys,
  Forall (fun x => forall y, equal_grounded xg yg x y = true <-> gr xg x = gr yg y) xs ->
  length xs = length ys ->
  (grounded_loop (equal_grounded xg yg) xs ys = true <-> map (gr xg) xs = map (gr yg) ys).
Proof.
  intros xg yg xs ys F. revert ys. induction F as [|x xs H F IH]; intros [|y ys] L; try discriminate.
  - simpl. tauto.
  - simpl. specialize (H y). specialize (IH ys ltac:(simpl in L; lia)).
    destruct (equal_grounded xg yg x y).
    + rewrite IH. split; intros E; [|congruence]. f_equal; [apply H; reflexivity|exact E].
    + split; [discriminate|]. intros E. injection E as E _. apply H in E. discriminate.
Qed.

Lemma equal_grounded_iff : forall xg yg x y,
  equal_grounded xg yg x y = true <-> gr xg x = gr yg y.
Proof.
  intros xg yg x. induction x as [i|c|fs F] using term_ind'; intros y.
  - destruct y as [j|d|gs]; unfold gr; simpl; try (rewrite equal_cst_exact; split; intros E; congruence).
    split; intros E; discriminate E.
  - destruct y as [j|d|gs]; unfold gr; simpl; try (rewrite equal_cst_exact; split; intros E; congruence).
    split; intros E; discriminate E.
  - destruct y as [j|d|gs]; try (unfold gr; simpl; split; intros E; discriminate E).
    cbn [equal_grounded]. destruct (Nat.eqb_spec (length fs) (length gs)) as [L|L].
    + rewrite (grounded_loop_iff xg yg fs gs F L). unfold gr at 3 4. cbn [app]. split; intros E.
      * f_equal. exact E.
      * injection E as E. exact E.
    + split; [discriminate|]. unfold gr. cbn [app]. intros E. injection E as E. exfalso. apply L.
      rewrite <- (map_length (app (fun _ => TCst xg)) fs), E. apply map_length.
Qed.

Section P.
Variable dhash : dblv -> Z.
Variable ltext : Z -> list Z.
Variable cap : Z.
Variable g : cst.

Notation prop_hash := (prop_hash dhash ltext g).
Notation slot_of a := (prop_slot (prop_hash a)).
Notation make_get := (make_get_propvar dhash ltext cap g).
Notation lits := (lits dhash ltext cap g).
Notation create := (create_propinst dhash ltext cap g).
Notation run := (run dhash ltext cap g).
Notation find_entry := (find_entry g).

Lemma prop_hash_ground : forall t, prop_hash t = term_hash dhash ltext (gr g t).
Proof.
  induction t as [i|c|fs F] using term_ind'; try reflexivity.
  unfold gr. cbn [PpModel.prop_hash app term_hash]. 
  assert (E : forall h, fold_left (fun h f => mix64 (prop_hash f) h) fs h =
              fold_left (fun h f => mix64 (term_hash dhash ltext f) h) (map (app (fun _ => TCst g)) fs) h).
  { induction F as [|f fs H F IH]; intros h; [reflexivity|]. simpl. rewrite IH, H. reflexivity. }
  rewrite E. reflexivity.
Qed.

(** The state between clauses and inside one. *)
Definition entry_ok (st : pst) (e : entry) : Prop :=
  e_slot e = slot_of (e_atom e) /\ e_const e = g /\ 2 <= e_var e < counter st.
Definition unit_at (st : pst) (k : nat) (z : Z) : Prop :=
  exists pc, nth_error (pclauses st) k = Some pc /\ plits pc = [z].
Record inv (st : pst) : Prop := Inv {
  i_count : 2 <= counter st;
  i_entries : Forall (entry_ok st) (entries st);
  i_atoms : NoDup (map (fun e => gr g (e_atom e)) (entries st));
  i_vars : NoDup (map e_var (entries st));
  i_vals : forall p, varvals st p <> 0 ->
    2 <= p < counter st /\ (varvals st p = 1 \/ varvals st p = -1) /\ unit_at st (unit_of st p) (varvals st p * p);
  i_lits : forall pc z, In pc (pclauses st) -> In z (plits pc) -> 2 <= Z.abs z < counter st }.

(** [named st a p]: the ground atom [a] has the number [p]. *)
Definition named (st : pst) (a : term) (p : Z) : Prop :=
  exists e, In e (entries st) /\ gr g (e_atom e) = a /\ e_var e = p.
(** [names st l z]: the instance of the literal [l] has the number [z]. *)
Definition names (st : pst) (l : literal) (z : Z) : Prop :=
  exists p, named st (gr g (snd l)) p /\ z = if fst l then - p else p.

Lemma find_entry_some : forall es slot a p, find_entry es slot a = Some p ->
  Forall (fun e => e_const e = g) es ->
  exists e, In e es /\ gr g (e_atom e) = gr g a /\ e_var e = p.
Proof.
  induction es as [|e es IH]; intros slot a p H F; [discriminate|]. apply Forall_cons_iff in F. destruct F as (FE & FR).
  simpl in H. destruct ((e_slot e =? slot) && equal_grounded g (e_const e) a (e_atom e)) eqn:T.
  - injection H as <-. apply andb_true_iff in T. destruct T as (_ & T). rewrite FE in T. apply equal_grounded_iff in T.
    exists e. split; [left; reflexivity|]. split; [symmetry; exact T|reflexivity].
  - destruct (IH slot a p H FR) as (e' & I & A & B). exists e'. split; [right; exact I|]. auto.
Qed.

Lemma find_entry_none : forall es a, find_entry es (slot_of a) a = None ->
  Forall (fun e => e_slot e = slot_of (e_atom e) /\ e_const e = g) es ->
  ~ In (gr g a) (map (fun e => gr g (e_atom e)) es).
Proof.
  induction es as [|e es IH]; intros a H F I; [exact I|]. apply Forall_cons_iff in F. destruct F as ((FS & FC) & FR).
  simpl in H. destruct ((e_slot e =? slot_of a) && equal_grounded g (e_const e) a (e_atom e)) eqn:T; [discriminate|].
  destruct I as [I|I]; [|exact (IH a H FR I)].
  apply andb_false_iff in T. destruct T as [T|T].
  - apply Z.eqb_neq in T. apply T. rewrite FS, !prop_hash_ground, I. reflexivity.
  - rewrite FC in T. assert (X : equal_grounded g g a (e_atom e) = true) by (apply equal_grounded_iff; congruence). congruence.
Qed.

(** One state after another: only atoms are added. *)
Record grows (s t : pst) : Prop := Grows {
  g_count : counter s <= counter t;
  g_more : exists more, entries t = entries s ++ more;
  g_units : unit_of t = unit_of s;
  g_cls : pclauses t = pclauses s;
  g_vals : forall p, varvals t p = varvals s p }.

Lemma grows_refl : forall s, grows s s.
Proof. intros s. split; try reflexivity; try lia. exists nil. symmetry; apply app_nil_r. Qed.
Lemma grows_trans : forall a b c, grows a b -> grows b c -> grows a c.
Proof.
  intros a b c [A1 (m & A2) A3 A4 A5] [B1 (n & B2) B3 B4 B5]. split.
  - lia.
  - exists (m ++ n). rewrite B2, A2, app_assoc. reflexivity.
  - congruence.
  - congruence.
  - intros p. rewrite B5. apply A5.
Qed.
Lemma grows_named : forall s t a p, grows s t -> named s a p -> named t a p.
Proof.
  intros s t a p [_ (m & E) _ _ _] (e & I & A & B). exists e. split; [|auto]. rewrite E. apply in_or_app. left. exact I.
Qed.
Lemma grows_names : forall s t l z, grows s t -> names s l z -> names t l z.
Proof. intros s t l z G (p & N & E). exists p. split; [exact (grows_named s t _ p G N)|exact E]. Qed.
Lemma grows_unit : forall s t k z, grows s t -> unit_at s k z -> unit_at t k z.
Proof. intros s t k z [_ _ _ E _] (pc & A & B). exists pc. rewrite E. auto. Qed.

Lemma make_get_ok : forall st a st' p, inv st -> make_get st a = Some (st', p) ->
  inv st' /\ grows st st' /\ named st' (gr g a) p /\ counter st' <= counter st + 1 /\ 2 <= p < counter st'.
Proof.
  intros st a st' p I H. unfold make_get_propvar in H. pose proof I as [IC IE IA IV IL IP].
  assert (FC : Forall (fun e => e_const e = g) (entries st)).
  { revert IE. apply Forall_impl. intros e (_ & X & _). exact X. }
  destruct (find_entry (entries st) (slot_of a) a) as [q|] eqn:F.
  - injection H as <- <-. destruct (find_entry_some _ _ _ _ F FC) as (e & EI & EA & EV).
    split; [exact I|]. split; [apply grows_refl|]. split; [exists e; auto|]. split; [lia|].
    rewrite Forall_forall in IE. destruct (IE e EI) as (_ & _ & X). lia.
  - destruct (2 * cap <? 2 * counter st + 1); [discriminate|]. destruct (cap <? counter st); [discriminate|].
    injection H as <- <-. set (p := counter st) in *.
    assert (NZ : forall q, 2 <= q < p + 1 -> 2 <= q) by (intros; lia).
    assert (G : grows st (PSt (p + 1) (entries st ++ [Entry (slot_of a) a g p])
      (fun q => if q =? p then 0 else varvals st q) (unit_of st) (pclauses st))).
    { split; simpl; try reflexivity; try (unfold p; lia). { exists [Entry (slot_of a) a g p]. reflexivity. }
      intros q. destruct (Z.eqb_spec q p) as [->|N]; [|reflexivity].
      destruct (Z.eq_dec (varvals st p) 0) as [Z|Z]; [congruence|]. exfalso. destruct (IL p Z) as (X & _). unfold p in X. lia. }
    split; [|split; [exact G|split; [|split; [simpl; lia|simpl; lia]]]].
    + split; simpl.
      * lia.
      * apply Forall_app. split.
        -- revert IE. apply Forall_impl. intros e (A & B & C). split; [exact A|]. split; [exact B|]. simpl. lia.
        -- constructor; [|constructor]. split; [reflexivity|]. split; [reflexivity|]. simpl. unfold p. lia.
      * rewrite map_app. simpl. apply NoDup_Add with (a := gr g a) (l := map (fun e => gr g (e_atom e)) (entries st)).
        { rewrite <- (app_nil_r (map (fun e => gr g (e_atom e)) (entries st))) at 1. apply Add_app. }
        split; [exact IA|]. apply find_entry_none; [exact F|]. revert IE. apply Forall_impl. intros e (A & B & _). auto.
      * rewrite map_app. simpl. apply NoDup_Add with (a := p) (l := map e_var (entries st)).
        { rewrite <- (app_nil_r (map e_var (entries st))) at 1. apply Add_app. }
        split; [exact IV|]. intros X. apply in_map_iff in X. destruct X as (e & EV & EI).
        rewrite Forall_forall in IE. destruct (IE e EI) as (_ & _ & Y). unfold p in EV. lia.
      * intros q X. destruct (Z.eqb_spec q p) as [EQ|N]; [exfalso; apply X; reflexivity|]. destruct (IL q X) as (A & B & C).
        split; [unfold p; lia|]. split; [exact B|exact C].
      * intros pc z A B. specialize (IP pc z A B). unfold p. lia.
    + exists (Entry (slot_of a) a g p). simpl. split; [apply in_or_app; right; left; reflexivity|]. auto.
Qed.

(** Numbers of atoms are unique. *)
Lemma nodup_map_inj : forall (A B : Type) (f : A -> B) l x y, NoDup (map f l) -> In x l -> In y l -> f x = f y -> x = y.
Proof.
  intros A B f l x y. induction l as [|z l IH]; intros N X Y E; [destruct X|]. inversion N as [|u v NI NR]; subst.
  destruct X as [->|X], Y as [->|Y]; auto.
  - exfalso. apply NI. rewrite E. apply in_map. exact Y.
  - exfalso. apply NI. rewrite <- E. apply in_map. exact X.
Qed.
Lemma named_fun : forall st a p q, inv st -> named st a p -> named st a q -> p = q.
Proof.
  intros st a p q I (e & EI & EA & EV) (f & FI & FA & FV).
  assert (e = f) by (apply (nodup_map_inj _ _ (fun e => gr g (e_atom e)) (entries st)); [exact (i_atoms st I)|exact EI|exact FI|congruence]).
  congruence.
Qed.
Lemma named_inj : forall st a b p, inv st -> named st a p -> named st b p -> a = b.
Proof.
  intros st a b p I (e & EI & EA & EV) (f & FI & FA & FV).
  assert (e = f) by (apply (nodup_map_inj _ _ e_var (entries st)); [exact (i_vars st I)|exact EI|exact FI|congruence]).
  congruence.
Qed.
Lemma named_range : forall st a p, inv st -> named st a p -> 2 <= p < counter st.
Proof.
  intros st a p I (e & EI & _ & <-). pose proof (i_entries st I) as F. rewrite Forall_forall in F.
  exact (proj2 (proj2 (F e EI))).
Qed.

Lemma scan_store_spec : forall store z, z <> 0 ->
  match scan_store store z with
  | Fresh => ~ In z store /\ ~ In (- z) store
  | Repeated => In z store
  | Opposite => In (- z) store
  end.
Proof.
  induction store as [|s r IH]; intros z NZ; simpl; [tauto|].
  destruct (Z.eqb_spec s z) as [->|A]; [left; reflexivity|].
  destruct (Z.eqb_spec s (- z)) as [->|B]; [left; reflexivity|].
  specialize (IH z NZ). destruct (scan_store r z).
  - destruct IH as (X & Y). split; intros [Q|Q]; auto.
  - right; exact IH.
  - right; exact IH.
Qed.

(** Some units remove a literal, some clause of literals is true by a unit or by itself. *)
Definition removed (st : pst) (z : Z) : Prop := exists k, unit_at st k (- z).
Definition covered (st : pst) (c : list literal) : Prop :=
  (exists l z k, In l c /\ names st l z /\ unit_at st k z) \/
  (exists l m z, In l c /\ In m c /\ names st l z /\ names st m (- z)).

Record part (st : pst) (pre : list literal) (store : list Z) (n : nat) (cuts : list nat) : Prop := Part {
  p_all : forall l, In l pre -> exists z, names st l z /\
    (In z store \/ exists k, unit_at st k (- z) /\ ((n <= 98)%nat -> In k cuts));
  p_store : forall z, In z store -> exists l, In l pre /\ names st l z;
  p_len : (n <= length pre)%nat;
  p_cuts : forall k, In k cuts -> (k < length (pclauses st))%nat }.

Lemma part_grows : forall s t pre store n cuts, grows s t -> part s pre store n cuts -> part t pre store n cuts.
Proof.
  intros s t pre store n cuts G [A B C D]. split.
  - intros l I. destruct (A l I) as (z & N & X). exists z. split; [exact (grows_names s t l z G N)|].
    destruct X as [X|(k & U & V)]; [left; exact X|]. right. exists k. split; [exact (grows_unit s t k _ G U)|exact V].
  - intros z I. destruct (B z I) as (l & L & N). exists l. split; [exact L|]. exact (grows_names s t l z G N).
  - exact C.
  - intros k I. rewrite (g_cls s t G). exact (D k I).
Qed.

Lemma in_snoc : forall (A : Type) (l : list A) x y, In y (l ++ [x]) <-> In y l \/ y = x.
Proof.
  intros A l x y. split.
  - intros I. apply in_app_or in I. destruct I as [I|[I|[]]]; auto.
  - intros [I| ->]; apply in_or_app; [left; exact I|right; left; reflexivity].
Qed.

Lemma lits_ok : forall cl st pre store n cuts, inv st -> part st pre store n cuts ->
  match lits cl st store n cuts with
  | LFreed => True
  | LTrue st' => inv st' /\ grows st st' /\ covered st' (pre ++ cl) /\ counter st' <= counter st + Z.of_nat (length cl)
  | LDone st' store' cuts' => inv st' /\ grows st st' /\ counter st' <= counter st + Z.of_nat (length cl) /\
      exists n', part st' (pre ++ cl) store' n' cuts'
  end.
Proof.
  induction cl as [|[neg a] cl IH]; intros st pre store n cuts I P.
  - simpl. rewrite app_nil_r. split; [exact I|]. split; [apply grows_refl|]. split; [lia|]. exists n. exact P.
  - cbn [PpModel.lits]. destruct (make_get st a) as [[st' p]|] eqn:M; [|exact Logic.I].
    destruct (make_get_ok st a st' p I M) as (I' & G & N & C & R). cbv zeta.
    set (sign := if neg then 0 - 1 else 1). set (lit := if neg then 0 - p else p).
    assert (NM : names st' (neg, a) lit).
    { exists p. split; [exact N|]. unfold lit. simpl. destruct neg; lia. }
    assert (LS : lit = sign * p) by (unfold lit, sign; destruct neg; lia).
    assert (LN : lit <> 0) by (unfold lit; destruct neg; lia).
    pose proof (part_grows _ _ _ _ _ _ G P) as P'.
    assert (STEP : forall store1 n1 cuts1, part st' (pre ++ [(neg, a)]) store1 n1 cuts1 ->
      match lits cl st' store1 n1 cuts1 with
      | LFreed => True
      | LTrue st'0 => inv st'0 /\ grows st st'0 /\ covered st'0 (pre ++ (neg, a) :: cl) /\
          counter st'0 <= counter st + Z.of_nat (length ((neg, a) :: cl))
      | LDone st'0 store' cuts' => inv st'0 /\ grows st st'0 /\
          counter st'0 <= counter st + Z.of_nat (length ((neg, a) :: cl)) /\
          exists n', part st'0 (pre ++ (neg, a) :: cl) store' n' cuts'
      end).
    { intros store1 n1 cuts1 P1. specialize (IH st' (pre ++ [(neg, a)]) store1 n1 cuts1 I' P1).
      rewrite <- app_assoc in IH. cbn [List.app length] in IH |- *.
      destruct (lits cl st' store1 n1 cuts1) as [s|s sto cu|]; [| |exact Logic.I].
      - destruct IH as (A & B & D & E). split; [exact A|]. split; [exact (grows_trans _ _ _ G B)|]. split; [exact D|clear - E C; unfold literal in *; lia].
      - destruct IH as (A & B & E & D). split; [exact A|]. split; [exact (grows_trans _ _ _ G B)|]. split; [clear - E C; unfold literal in *; lia|exact D]. }
    destruct (Z.eqb_spec (varvals st' p) 0) as [V|V]; cbn [negb].
    + pose proof (scan_store_spec store lit LN) as SC. destruct (scan_store store lit).
      * apply STEP. destruct P' as [A B D E]. split.
        -- intros l X. apply in_snoc in X. destruct X as [X| ->].
           ++ destruct (A l X) as (z & Q & W). exists z. split; [exact Q|]. destruct W as [W|W]; [left; apply in_snoc; left; exact W|right; exact W].
           ++ exists lit. split; [exact NM|]. left. apply in_snoc. right. reflexivity.
        -- intros z X. apply in_snoc in X. destruct X as [X| ->].
           ++ destruct (B z X) as (l & L & Q). exists l. split; [apply in_snoc; left; exact L|exact Q].
           ++ exists (neg, a). split; [apply in_snoc; right; reflexivity|exact NM].
        -- rewrite app_length. lia.
        -- exact E.
      * apply STEP. destruct P' as [A B D E]. split.
        -- intros l X. apply in_snoc in X. destruct X as [X| ->]; [exact (A l X)|]. exists lit. split; [exact NM|]. left. exact SC.
        -- intros z X. destruct (B z X) as (l & L & Q). exists l. split; [apply in_snoc; left; exact L|exact Q].
        -- rewrite app_length. lia.
        -- exact E.
      * split; [exact I'|]. split; [exact G|]. split; [|cbn [length]; lia]. right.
        destruct (p_store _ _ _ _ _ P' (- lit) SC) as (m & MI & MN). exists (neg, a), m, lit.
        split; [apply in_or_app; right; left; reflexivity|]. split; [apply in_or_app; left; exact MI|]. split; [exact NM|exact MN].
    + destruct (i_vals st' I' p V) as (_ & VV & U).
      destruct (Z.eqb_spec (varvals st' p) sign) as [SG|SG].
      * split; [exact I'|]. split; [exact G|]. split; [|cbn [length]; lia]. left. exists (neg, a), lit, (unit_of st' p).
        split; [apply in_or_app; right; left; reflexivity|]. split; [exact NM|]. rewrite LS, <- SG. exact U.
      * assert (U' : unit_at st' (unit_of st' p) (- lit)).
        { replace (- lit) with (varvals st' p * p); [exact U|]. rewrite LS. unfold sign in SG |- *. destruct neg; destruct VV as [VV|VV]; rewrite VV in SG |- *; lia. }
        assert (UL : (unit_of st' p < length (pclauses st'))%nat).
        { destruct U' as (pc & X & _). apply nth_error_Some. congruence. }
        apply STEP. destruct P' as [A B D E]. split.
        -- intros l X. apply in_snoc in X. destruct X as [X| ->].
           ++ destruct (A l X) as (z & Q & W). exists z. split; [exact Q|]. destruct W as [W|(k & W1 & W2)]; [left; exact W|right].
              exists k. split; [exact W1|]. intros L. specialize (W2 ltac:(lia)).
              destruct (Nat.ltb (S n + 1) 100); [apply in_snoc; left; exact W2|exact W2].
           ++ exists lit. split; [exact NM|]. right. exists (unit_of st' p). split; [exact U'|]. intros L.
              destruct (Nat.ltb_spec (S n + 1) 100); [apply in_snoc; right; reflexivity|lia].
        -- intros z X. destruct (B z X) as (l & L & Q). exists l. split; [apply in_snoc; left; exact L|exact Q].
        -- rewrite app_length. cbn [length]. lia.
        -- intros k X. destruct (Nat.ltb (S n + 1) 100); [|exact (E k X)].
           apply in_snoc in X. destruct X as [X| ->]; [exact (E k X)|exact UL].
Qed.

(** * Clauses made so far *)
(** [from st b c store cuts]: the numbers [store] are the instance of the clause [c] without literals that units before
    place [b] make false; the units are noted when the clause has at most 98 literals. *)
Definition from (st : pst) (b : nat) (c : list literal) (store : list Z) (cuts : list nat) : Prop :=
  (forall l, In l c -> exists z, names st l z /\
     (In z store \/ exists k, (k < b)%nat /\ unit_at st k (- z) /\ ((length c <= 98)%nat -> In k cuts))) /\
  (forall z, In z store -> exists l, In l c /\ names st l z).
Record whole (st : pst) (done : list (list literal)) : Prop := Whole {
  w_inv : inv st;
  w_from : forall k pc, nth_error (pclauses st) k = Some pc ->
    In (parent pc) done /\ from st k (parent pc) (plits pc) (cutters pc) /\ (forall j, In j (cutters pc) -> (j < k)%nat);
  w_done : forall c, In c done -> covered st c \/ exists pc, In pc (pclauses st) /\ parent pc = c }.

Lemma part_from : forall st c store n cuts, part st c store n cuts -> from st (length (pclauses st)) c store cuts.
Proof.
  intros st c store n cuts [A B C D]. split; [|exact B]. intros l I. destruct (A l I) as (z & N & X). exists z.
  split; [exact N|]. destruct X as [X|(k & U & V)]; [left; exact X|right]. exists k. split; [|split; [exact U|]].
  - destruct U as (pc & U & _). apply nth_error_Some. congruence.
  - intros L. apply V. lia.
Qed.

(** Adding clauses at the end keeps units and names. *)
Record later (s t : pst) : Prop := Later {
  l_entries : exists more, entries t = entries s ++ more;
  l_cls : exists more, pclauses t = pclauses s ++ more }.
Lemma grows_later : forall s t, grows s t -> later s t.
Proof. intros s t [A B C D E]. split; [exact B|]. exists nil. rewrite D, app_nil_r. reflexivity. Qed.
Lemma later_names : forall s t l z, later s t -> names s l z -> names t l z.
Proof.
  intros s t l z [(m & E) _] (p & (e & I & A & B) & X). exists p. split; [|exact X]. exists e. split; [|auto].
  rewrite E. apply in_or_app. left. exact I.
Qed.
Lemma later_unit : forall s t k z, later s t -> unit_at s k z -> unit_at t k z.
Proof.
  intros s t k z [_ (m & E)] (pc & A & B). exists pc. split; [|exact B]. rewrite E, nth_error_app1; [exact A|].
  apply nth_error_Some. congruence.
Qed.
Lemma later_covered : forall s t c, later s t -> covered s c -> covered t c.
Proof.
  intros s t c L [(l & z & k & I & N & U)|(l & m & z & I & J & N & M)].
  - left. exists l, z, k. split; [exact I|]. split; [exact (later_names s t l z L N)|exact (later_unit s t k z L U)].
  - right. exists l, m, z. split; [exact I|]. split; [exact J|]. split; [exact (later_names s t l z L N)|exact (later_names s t m _ L M)].
Qed.
Lemma later_from : forall s t b c store cuts, later s t -> from s b c store cuts -> from t b c store cuts.
Proof.
  intros s t b c store cuts L (A & B). split.
  - intros l I. destruct (A l I) as (z & N & X). exists z. split; [exact (later_names s t l z L N)|].
    destruct X as [X|(k & BK & U & V)]; [left; exact X|right]. exists k. split; [exact BK|]. split; [exact (later_unit s t k _ L U)|exact V].
  - intros z I. destruct (B z I) as (l & J & N). exists l. split; [exact J|exact (later_names s t l z L N)].
Qed.

Lemma names_abs : forall st l z, inv st -> names st l z -> 2 <= Z.abs z < counter st.
Proof.
  intros st l z I (p & N & E). pose proof (named_range st _ p I N). destruct (fst l); lia.
Qed.

Lemma whole_init : whole pinit nil.
Proof.
  split.
  - split; simpl.
    + lia.
    + constructor.
    + constructor.
    + constructor.
    + intros p X. contradiction.
    + intros pc z [].
  - intros [|k] pc H; discriminate H.
  - intros c [].
Qed.

(** What the making of one more clause leaves. *)
Lemma create_ok : forall st done c, whole st done ->
  match create st c with
  | Added st' | Skipped st' => whole st' (done ++ [c]) /\ counter st' <= counter st + Z.of_nat (length c)
  | Proof_ st' cuts => whole st' done /\ from st' (length (pclauses st')) c nil cuts /\ (forall j, In j cuts -> (j < length (pclauses st'))%nat)
  | Freed => True
  end.
Proof.
  intros st done c [I F D]. unfold create_propinst.
  assert (P0 : part st nil nil 0 nil).
  { split; [intros l []|intros z []|simpl; lia|intros k []]. }
  pose proof (lits_ok c st nil nil 0 nil I P0) as H. simpl List.app in H.
  destruct (lits c st nil 0 nil) as [st'|st' store cuts|]; [| |exact Logic.I].
  - destruct H as (I' & G & C & N). split; [|exact N]. pose proof (grows_later _ _ G) as L. split; [exact I'| |].
    + intros k pc H. rewrite (g_cls _ _ G) in H. destruct (F k pc H) as (A & B & E).
      split; [apply in_or_app; left; exact A|]. split; [exact (later_from _ _ _ _ _ _ L B)|exact E].
    + intros d X. apply in_snoc in X. destruct X as [X| ->]; [|left; exact C].
      destruct (D d X) as [Y|(pc & Y & W)]; [left; exact (later_covered _ _ _ L Y)|right]. exists pc.
      rewrite (g_cls _ _ G). auto.
  - destruct H as (I' & G & N & n' & P). pose proof (grows_later _ _ G) as L.
    assert (F' : forall k pc, nth_error (pclauses st') k = Some pc ->
      In (parent pc) done /\ from st' k (parent pc) (plits pc) (cutters pc) /\ (forall j, In j (cutters pc) -> (j < k)%nat)).
    { intros k pc H. rewrite (g_cls _ _ G) in H. destruct (F k pc H) as (A & B & E).
      split; [exact A|]. split; [exact (later_from _ _ _ _ _ _ L B)|exact E]. }
    assert (D' : forall d, In d done -> covered st' d \/ exists pc, In pc (pclauses st') /\ parent pc = d).
    { intros d X. destruct (D d X) as [Y|(pc & Y & W)]; [left; exact (later_covered _ _ _ L Y)|right]. exists pc.
      rewrite (g_cls _ _ G). auto. }
    destruct store as [|v r].
    + split; [split; [exact I'|exact F'|exact D']|]. split; [exact (part_from _ _ _ _ _ P)|exact (p_cuts _ _ _ _ _ P)].
    + set (cls := pclauses st' ++ [PClause (v :: r) c cuts]).
      assert (K : forall vv uo, (forall p, vv p <> 0 -> 2 <= p < counter st' /\ (vv p = 1 \/ vv p = -1) /\
           exists pc, nth_error cls (uo p) = Some pc /\ plits pc = [vv p * p]) ->
         whole (PSt (counter st') (entries st') vv uo cls) (done ++ [c])).
      { intros vv uo V. set (t := PSt (counter st') (entries st') vv uo cls).
        assert (LT : later st' t).
        { split; [exists nil; rewrite app_nil_r; reflexivity|]. exists [PClause (v :: r) c cuts]. reflexivity. }
        assert (IT : inv t).
        { destruct I' as [I1 I2 I3 I4 I5 I6] eqn:II. split; [exact I1|exact I2|exact I3|exact I4|exact V|].
          intros pc z X Y. apply in_snoc in X. destruct X as [X| ->]; [exact (I6 pc z X Y)|]. cbn [plits] in Y.
          destruct (p_store _ _ _ _ _ P z Y) as (l & _ & NL). exact (names_abs st' l z I' NL). }
        split; [exact IT| |].
        - intros k pc H. simpl in H. unfold cls in H. destruct (Nat.lt_ge_cases k (length (pclauses st'))) as [LK|LK].
          + rewrite nth_error_app1 in H by exact LK. destruct (F' k pc H) as (A & B & E).
            split; [apply in_or_app; left; exact A|]. split; [exact (later_from _ _ _ _ _ _ LT B)|exact E].
          + rewrite nth_error_app2 in H by exact LK.
            destruct (k - length (pclauses st'))%nat as [|x] eqn:KE; [|destruct x; discriminate H].
            injection H as <-. cbn [parent plits cutters]. assert (k = length (pclauses st')) as -> by lia. split; [apply in_snoc; right; reflexivity|].
            split; [exact (later_from _ _ _ _ _ _ LT (part_from _ _ _ _ _ P))|]. intros j J.
            pose proof (p_cuts _ _ _ _ _ P j J). lia.
        - intros d X. apply in_snoc in X. destruct X as [X| ->].
          + destruct (D' d X) as [Y|(pc & Y & W)]; [left; exact (later_covered _ _ _ LT Y)|right]. exists pc. split; [|exact W].
            simpl. unfold cls. apply in_or_app. left. exact Y.
          + right. exists (PClause (v :: r) c cuts). split; [|reflexivity]. simpl. unfold cls. apply in_snoc. right. reflexivity. }
      assert (OLD : forall p, varvals st' p <> 0 -> 2 <= p < counter st' /\ (varvals st' p = 1 \/ varvals st' p = -1) /\
           exists pc, nth_error cls (unit_of st' p) = Some pc /\ plits pc = [varvals st' p * p]).
      { intros p X. destruct (i_vals st' I' p X) as (A & B & (pc & U & W)). split; [exact A|]. split; [exact B|].
        exists pc. split; [|exact W]. unfold cls. rewrite nth_error_app1; [exact U|]. apply nth_error_Some. congruence. }
      destruct r as [|w r].
      * split; [|exact N]. apply K. intros p X.
        destruct (p_store _ _ _ _ _ P v (or_introl eq_refl)) as (l & _ & NL). pose proof (names_abs st' l v I' NL) as R.
        destruct (Z.eqb_spec p (if v <? 0 then 0 - v else v)) as [E|NE].
        -- destruct (Z.ltb_spec v 0) as [LV|LV].
           ++ split; [lia|]. split; [right; reflexivity|]. exists (PClause [v] c cuts). split.
              { unfold cls. rewrite nth_error_app2 by lia. rewrite Nat.sub_diag. reflexivity. }
              cbn [plits]. f_equal. lia.
           ++ split; [lia|]. split; [left; reflexivity|]. exists (PClause [v] c cuts). split.
              { unfold cls. rewrite nth_error_app2 by lia. rewrite Nat.sub_diag. reflexivity. }
              cbn [plits]. f_equal. lia.
        -- apply OLD. exact X.
      * split; [|exact N]. apply K. exact OLD.
Qed.

Lemma run_ok : forall cls st done, whole st done ->
  match run st cls with
  | Going st' => whole st' (done ++ cls)
  | Refuted st' c cuts => exists some, whole st' (done ++ some) /\ incl some cls /\ In c cls /\
      from st' (length (pclauses st')) c nil cuts /\ (forall j, In j cuts -> (j < length (pclauses st'))%nat)
  | Broken => True
  end.
Proof.
  induction cls as [|c cls IH]; intros st done W.
  - simpl. rewrite app_nil_r. exact W.
  - cbn [PpModel.run]. pose proof (create_ok st done c W) as H.
    assert (S1 : forall st', whole st' (done ++ [c]) ->
      match run st' cls with
      | Going st'0 => whole st'0 (done ++ c :: cls)
      | Refuted st'0 d cuts => exists some, whole st'0 (done ++ some) /\ incl some (c :: cls) /\ In d (c :: cls) /\
          from st'0 (length (pclauses st'0)) d nil cuts /\ (forall j, In j cuts -> (j < length (pclauses st'0))%nat)
      | Broken => True
      end).
    { intros st' W'. specialize (IH st' (done ++ [c]) W'). rewrite <- app_assoc in IH. cbn [List.app] in IH.
      destruct (run st' cls) as [s|s d cuts|]; [exact IH| |exact Logic.I].
      destruct IH as (some & A & B & C & D). exists (c :: some). rewrite <- app_assoc in A. cbn [List.app] in A.
      split; [exact A|]. split; [|split; [right; exact C|exact D]]. intros x [->|X]; [left; reflexivity|right; exact (B x X)]. }
    destruct (create st c) as [st'|st'|st' cuts|]; [| | |exact Logic.I].
    + apply S1. exact (proj1 H).
    + apply S1. exact (proj1 H).
    + destruct H as (A & B & C). exists nil. rewrite app_nil_r. split; [exact A|]. split; [intros x []|].
      split; [left; reflexivity|]. split; [exact B|exact C].
Qed.

(** Sizes. *)
Lemma run_size : forall cls st done st', whole st done -> run st cls = Going st' ->
  counter st' <= counter st + Z.of_nat (length (concat cls)) /\
  (length (pclauses st') <= length (pclauses st) + length cls)%nat.
Proof.
  induction cls as [|c cls IH]; intros st done st' W H.
  - injection H as <-. simpl. lia.
  - cbn [PpModel.run] in H. pose proof (create_ok st done c W) as K.
    assert (N : forall s, create st c = Added s \/ create st c = Skipped s -> (length (pclauses s) <= S (length (pclauses st)))%nat).
    { intros s E. unfold create_propinst in E. assert (P0 : part st nil nil 0 nil).
      { split; [intros l []|intros z []|simpl; lia|intros k []]. }
      pose proof (lits_ok c st nil nil 0 nil (w_inv _ _ W) P0) as X.
      destruct (lits c st nil 0 nil) as [t|t store cuts|]; [| |destruct E as [E|E]; discriminate E].
      - destruct X as (_ & G & _). destruct E as [E|E]; [discriminate E|]. injection E as <-. rewrite (g_cls _ _ G). lia.
      - destruct X as (_ & G & _). pose proof (g_cls _ _ G) as GC. destruct store as [|v r]; [destruct E as [E|E]; discriminate E|].
        destruct E as [E|E]; [|discriminate E]. injection E as <-.
        destruct r as [|w r]; cbn [pclauses]; rewrite app_length, GC; simpl; lia. }
    cbn [concat length]. rewrite app_length.
    destruct (create st c) as [s|s|s cuts|] eqn:E; [| |discriminate|discriminate].
    + destruct K as (W' & C). destruct (IH s _ st' W' H) as (A & B). specialize (N s (or_introl eq_refl)). lia.
    + destruct K as (W' & C). destruct (IH s _ st' W' H) as (A & B). specialize (N s (or_intror eq_refl)). lia.
Qed.

(** * What it means *)
Lemma num_true_opp : forall P z, num_true P z -> num_true P (- z) -> False.
Proof.
  intros P z [(A & B)|(A & B)] [(C & D)|(C & D)]; try lia.
  - apply D. rewrite Z.opp_involutive. exact B.
  - apply B. exact D.
Qed.

Lemma unit_true : forall st P k z, unit_at st k z -> (forall pc, In pc (pclauses st) -> nums_true P (plits pc)) -> num_true P z.
Proof.
  intros st P k z (pc & A & B) H. apply nth_error_In in A. destruct (H pc A) as (y & Y & T). rewrite B in Y.
  destruct Y as [->|[]]. exact T.
Qed.

Lemma snd_inst : forall l, inst (fun _ => TCst g) l = (fst l, gr g (snd l)).
Proof. intros (n, a). reflexivity. Qed.

(** An assignment of the atoms, seen on the numbers. *)
Definition on_nums (st : pst) (V : term -> Prop) (p : Z) : Prop := exists a, named st a p /\ V a.
Lemma names_true : forall st V l z, inv st -> names st l z ->
  (lit_true V (inst (fun _ => TCst g) l) <-> num_true (on_nums st V) z).
Proof.
  intros st V l z I (p & N & ->). rewrite snd_inst. unfold lit_true. cbn [fst snd].
  pose proof (named_range st _ p I N) as R.
  assert (X : on_nums st V p <-> V (gr g (snd l))).
  { split; [|intros H; exists (gr g (snd l)); auto]. intros (a & A & B). rewrite (named_inj st _ a p I N A). exact B. }
  unfold num_true. destruct (fst l).
  - rewrite Z.opp_involutive, X. split; [intros H; right; split; [lia|exact H]|]. intros [(A & _)|(_ & B)]; [lia|exact B].
  - rewrite X. split; [intros H; left; split; [lia|exact H]|]. intros [(_ & B)|(A & _)]; [exact B|lia].
Qed.

Lemma from_true : forall st V b c store cuts, inv st -> from st b c store cuts ->
  (forall k z, (k < b)%nat -> unit_at st k z -> num_true (on_nums st V) z) ->
  clause_true V (ground_with g c) -> nums_true (on_nums st V) store.
Proof.
  intros st V b c store cuts I (A & _) U (l & L & T). unfold ground_with in L. apply in_map_iff in L.
  destruct L as (l0 & <- & L). destruct (A l0 L) as (z & N & X). apply (names_true st V l0 z I N) in T.
  destruct X as [X|(k & B & K & _)]; [exists z; auto|]. exfalso. exact (num_true_opp _ z T (U k _ B K)).
Qed.

(** The clauses are true if the instances of those done are: by induction on the place. *)
Lemma all_true : forall st done V, whole st done -> (forall c, In c done -> clause_true V (ground_with g c)) ->
  forall k pc, nth_error (pclauses st) k = Some pc -> nums_true (on_nums st V) (plits pc).
Proof.
  intros st done V [I F _] H. induction k as [k IH] using lt_wf_ind. intros pc N. destruct (F k pc N) as (A & B & _).
  apply (from_true st V k (parent pc) (plits pc) (cutters pc) I B); [|exact (H _ A)].
  intros j z L (q & Q & E). destruct (IH j L q Q) as (y & Y & T). rewrite E in Y. destruct Y as [->|[]]. exact T.
Qed.

Lemma refuted_false : forall st done V c cuts, whole st done -> from st (length (pclauses st)) c nil cuts ->
  (forall d, In d done -> clause_true V (ground_with g d)) -> ~ clause_true V (ground_with g c).
Proof.
  intros st done V c cuts W F H T. destruct (from_true st V _ c nil cuts (w_inv _ _ W) F) as (z & [] & _); [|exact T].
  intros k z _ (q & Q & E). destruct (all_true st done V W H k q Q) as (y & Y & R). rewrite E in Y. destruct Y as [->|[]]. exact R.
Qed.

(** * Numbers of ground atoms *)
Definition num (st : pst) (a : term) : Z :=
  match find (fun e => equal_grounded g g (e_atom e) a) (entries st) with Some e => e_var e | None => 1 end.

Lemma gr_gr : forall t, gr g (gr g t) = gr g t.
Proof.
  induction t as [i|c|fs F] using term_ind'; try reflexivity. unfold gr in *. cbn [app]. f_equal. rewrite map_map.
  apply map_ext_in. intros x X. rewrite Forall_forall in F. exact (F x X).
Qed.

Lemma num_named : forall st x p, inv st -> named st (gr g x) p -> num st (gr g x) = p.
Proof.
  intros st x p I N. unfold num. destruct (find _ (entries st)) as [e|] eqn:F.
  - apply find_some in F. destruct F as (A & B). apply equal_grounded_iff in B. rewrite gr_gr in B.
    apply (named_fun st (gr g x) (e_var e) p I); [|exact N]. exists e. auto.
  - exfalso. destruct N as (e & A & B & _). pose proof (find_none _ _ F e A) as X. simpl in X.
    assert (Y : equal_grounded g g (e_atom e) (gr g x) = true) by (apply equal_grounded_iff; rewrite gr_gr; exact B).
    congruence.
Qed.

Lemma num_pos : forall st a, inv st -> 0 < num st a.
Proof.
  intros st a I. unfold num. destruct (find _ (entries st)) as [e|] eqn:F; [|lia]. apply find_some in F.
  pose proof (i_entries st I) as E. rewrite Forall_forall in E. pose proof (proj2 (proj2 (E e (proj1 F)))). lia.
Qed.

Lemma num_true_lit : forall st (P : Z -> Prop) l z, inv st -> names st l z ->
  (lit_true (fun a => P (num st a)) (inst (fun _ => TCst g) l) <-> num_true P z).
Proof.
  intros st P l z I (p & N & ->). rewrite snd_inst. unfold lit_true. cbn [fst snd]. rewrite (num_named st (snd l) p I N).
  pose proof (named_range st _ p I N) as R. unfold num_true. destruct (fst l).
  - rewrite Z.opp_involutive. split; [intros H; right; split; [lia|exact H]|]. intros [(A & _)|(_ & B)]; [lia|exact B].
  - split; [intros H; left; split; [lia|exact H]|]. intros [(_ & B)|(A & _)]; [exact B|lia].
Qed.

(** If the clauses are true, so are all instances. *)
Lemma back_true : forall st done (P : Z -> bool), whole st done ->
  (forall pc, In pc (pclauses st) -> nums_true (is_true_of P) (plits pc)) ->
  forall c, In c done -> clause_true (is_true_of (fun a => P (num st a))) (ground_with g c).
Proof.
  intros st done P [I F D] H c C.
  assert (K : forall l z, In l c -> names st l z -> num_true (is_true_of P) z ->
    clause_true (is_true_of (fun a => P (num st a))) (ground_with g c)).
  { intros l z L N T. exists (inst (fun _ => TCst g) l). split; [apply in_map; exact L|].
    apply (num_true_lit st (is_true_of P) l z I N). exact T. }
  destruct (D c C) as [[(l & z & k & L & N & U)|(l & m & z & L & M & N & N2)]|(pc & A & B)].
  - apply (K l z L N). exact (unit_true st _ k z U H).
  - pose proof (names_abs st l z I N) as R. unfold is_true_of in *.
    assert (X : num_true (fun a => P a = true) z \/ num_true (fun a => P a = true) (- z)).
    { unfold num_true. rewrite Z.opp_involutive. destruct (P z) eqn:E1, (P (- z)) eqn:E2; destruct (Z.lt_ge_cases 0 z).
      all: try (left; left; split; [lia|congruence]).
      all: try (left; right; split; [lia|congruence]).
      all: try (right; left; split; [lia|congruence]).
      all: right; right; split; [lia|congruence]. }
    destruct X as [X|X]; [exact (K l z L N X)|exact (K m (- z) M N2 X)].
  - destruct (H pc A) as (z & Z & T). apply In_nth_error in A. destruct A as (k & A).
    destruct (F k pc A) as (_ & (_ & G) & _). destruct (G z Z) as (l & L & N). rewrite B in L. exact (K l z L N T).
Qed.

(** A step of the history. *)
Lemma step_true : forall st (P : Z -> Prop) b c store cuts, inv st -> from st b c store cuts -> (length c <= 98)%nat ->
  (forall j, In j cuts -> exists q, nth_error (pclauses st) j = Some q /\ nums_true P (plits q)) ->
  clause_true (fun a => P (num st a)) (ground_with g c) -> nums_true P store.
Proof.
  intros st P b c store cuts I (A & _) L U (l & M & T). unfold ground_with in M. apply in_map_iff in M.
  destruct M as (l0 & <- & M). destruct (A l0 M) as (z & N & X). apply (num_true_lit st P l0 z I N) in T.
  destruct X as [X|(k & _ & (q & Q & E) & K)]; [exists z; auto|]. exfalso. destruct (U k (K L)) as (q' & Q' & y & Y & R).
  rewrite Q in Q'. injection Q' as <-. rewrite E in Y. destruct Y as [<-|[]]. exact (num_true_opp _ z T R).
Qed.

Lemma num_injective : forall st b c store cuts b' c' store' cuts' l l', inv st -> from st b c store cuts -> from st b' c' store' cuts' ->
  In l c -> In l' c' -> num st (snd (inst (fun _ => TCst g) l)) = num st (snd (inst (fun _ => TCst g) l')) ->
  snd (inst (fun _ => TCst g) l) = snd (inst (fun _ => TCst g) l').
Proof.
  intros st b c store cuts b' c' store' cuts' l l' I (A & _) (A' & _) L L' E. rewrite !snd_inst in *. cbn [snd] in *.
  destruct (A l L) as (z & (p & N & _) & _). destruct (A' l' L') as (z' & (p' & N' & _) & _).
  rewrite (num_named st _ p I N), (num_named st _ p' I N') in E. subst p'. exact (named_inj st _ _ p I N N').
Qed.

(** * Room in the vectors *)
Lemma make_get_room : forall st a, counter st < cap -> exists st' p, make_get st a = Some (st', p).
Proof.
  intros st a L. unfold make_get_propvar. destruct (find_entry _ _ _) as [p|]; [exists st, p; reflexivity|].
  destruct (Z.ltb_spec (2 * cap) (2 * counter st + 1)); [lia|]. destruct (Z.ltb_spec cap (counter st)); [lia|].
  eexists. eexists. reflexivity.
Qed.
Lemma lits_room : forall cl st store n cuts, inv st -> counter st + Z.of_nat (length cl) <= cap ->
  lits cl st store n cuts <> LFreed.
Proof.
  induction cl as [|[neg a] cl IH]; intros st store n cuts I L; [discriminate|]. cbn [length] in L. cbn [PpModel.lits].
  destruct (make_get_room st a ltac:(lia)) as (st' & p & E). rewrite E.
  destruct (make_get_ok st a st' p I E) as (I' & _ & _ & C & _).
  assert (L' : counter st' + Z.of_nat (length cl) <= cap) by (clear - C L; unfold literal in *; lia). cbv zeta.
  destruct (negb (varvals st' p =? 0)).
  - destruct (_ =? _); [discriminate|]. apply IH; assumption.
  - destruct (scan_store _ _); [| |discriminate]; apply IH; assumption.
Qed.
Lemma run_room : forall cls st done, whole st done -> counter st + Z.of_nat (length (concat cls)) <= cap -> run st cls <> Broken.
Proof.
  induction cls as [|c cls IH]; intros st done W L; [discriminate|]. cbn [PpModel.run]. simpl in L. rewrite app_length in L.
  pose proof (create_ok st done c W) as H.
  assert (N : create st c <> Freed).
  { unfold create_propinst. pose proof (lits_room c st nil 0 nil (w_inv _ _ W) ltac:(lia)) as X.
    destruct (lits c st nil 0 nil) as [s|s store cuts|]; [discriminate| |congruence]. destruct store; discriminate. }
  destruct (create st c) as [s|s|s cuts|]; [| |discriminate|congruence].
  - destruct H as (W' & C). apply (IH s _ W'). lia.
  - destruct H as (W' & C). apply (IH s _ W'). lia.
Qed.

(** * No room *)
Definition kth (k : nat) : list literal := [(false, TRec [TCst (CImm (Z.of_nat k))])].
Lemma kth_ground : forall i j, gr g (snd (hd (false, TVar 0) (kth i))) = gr g (snd (hd (false, TVar 0) (kth j))) -> i = j.
Proof. intros i j E. cbn in E. injection E as E. lia. Qed.

Lemma create_kth : forall st k, inv st -> counter st = 2 + Z.of_nat k ->
  (forall e, In e (entries st) -> exists j, (j < k)%nat /\ e_atom e = snd (hd (false, TVar 0) (kth j))) ->
  if cap <=? counter st then create st (kth k) = Freed
  else exists st', create st (kth k) = Added st' /\ counter st' = 2 + Z.of_nat (S k) /\
    forall e, In e (entries st') -> exists j, (j < S k)%nat /\ e_atom e = snd (hd (false, TVar 0) (kth j)).
Proof.
  intros st k I C A. unfold create_propinst, kth. cbn [PpModel.lits]. unfold make_get_propvar.
  destruct (find_entry (entries st) (slot_of (TRec [TCst (CImm (Z.of_nat k))])) (TRec [TCst (CImm (Z.of_nat k))])) as [p|] eqn:F.
  - exfalso. apply find_entry_some in F.
    + destruct F as (e & EI & EA & _). destruct (A e EI) as (j & J & EJ). rewrite EJ in EA.
      apply (kth_ground j k) in EA. lia.
    + pose proof (i_entries st I) as X. revert X. apply Forall_impl. intros e (_ & Y & _). exact Y.
  - destruct (Z.leb_spec cap (counter st)) as [L|L].
    + destruct (Z.ltb_spec (2 * cap) (2 * counter st + 1)); [reflexivity|lia].
    + destruct (Z.ltb_spec (2 * cap) (2 * counter st + 1)); [lia|]. destruct (Z.ltb_spec cap (counter st)); [lia|].
      cbv zeta. cbn [varvals]. rewrite Z.eqb_refl. cbn [negb Z.eqb scan_store List.app].
      eexists. split; [reflexivity|]. cbn [counter entries]. split; [lia|].
      intros e EI. apply in_snoc in EI. destruct EI as [EI| ->].
      * destruct (A e EI) as (j & J & EJ). exists j. split; [lia|exact EJ].
      * exists k. split; [lia|reflexivity].
Qed.

Lemma run_kth : forall n k st done, whole st done -> counter st = 2 + Z.of_nat k ->
  (forall e, In e (entries st) -> exists j, (j < k)%nat /\ e_atom e = snd (hd (false, TVar 0) (kth j))) ->
  cap <= 2 + Z.of_nat (k + n) -> run st (map kth (seq k (S n))) = Broken.
Proof.
  induction n as [|n IH]; intros k st done W C A L; cbn [seq map PpModel.run];
    pose proof (create_kth st k (w_inv _ _ W) C A) as H; destruct (Z.leb_spec cap (counter st)) as [R|R].
  - rewrite H. reflexivity.
  - lia.
  - rewrite H. reflexivity.
  - destruct H as (st' & E & C' & A'). rewrite E. pose proof (create_ok st done (kth k) W) as K. rewrite E in K.
    apply (IH (S k) st' _ (proj1 K) C' A'). lia.
Qed.
End P.
