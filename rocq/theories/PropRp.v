(** C74: applying the journal to the database it started from gives the same records again, at whatever
    offsets memory is given now. *)
From Coq Require Import ZArith Lia List Bool.
From Verif Require GhModel GhProof PropGh.
From Verif Require Import RpModel.
Import ListNotations.
Open Scope Z_scope.

(** ** Specification *)
(** The run that wrote the journal: the operations succeeded, no offset was given a second time for
    something else, and only values that exist were stored.  [u]: the offsets ever used. *)
Definition gives (o : op) (x : Z) : Prop := match o with Cre _ off | Enc _ off => x = off | _ => False end.
Definition proper (m : heap) (u : Z -> Prop) (o : op) : Prop :=
  match o with
  | Cre _ off => ~ u off
  | Enc _ off => m off = None -> ~ u off
  | SetF _ _ (Ref off) => m off <> None
  | CreFail _ => False
  | _ => True
  end.
Inductive original : heap -> (Z -> Prop) -> list op -> heap -> Prop :=
| original_nil : forall m u, original m u [] m
| original_cons : forall m u o ops m1 m2, proper m u o -> exec o m = Some m1 ->
    original m1 (fun x => u x \/ gives o x) ops m2 -> original m u (o :: ops) m2.
(** Two databases with corresponding offsets hold the same: equal lengths, meta words, immediate values
    and data; references correspond (a reference to something deleted is left open) *)
Definition same_val (R : Z -> Z -> Prop) (m : heap) (v w : val) : Prop :=
  match v, w with
  | Imm a, Imm b => a = b
  | Ref o, Ref n => R o n \/ m o = None
  | _, _ => False
  end.
Definition same_cell (R : Z -> Z -> Prop) (m : heap) (c d : cell) : Prop :=
  match c, d with
  | Rec l f x, Rec l' f' x' => l = l' /\ x = x' /\ forall i, same_val R m (f i) (f' i)
  | Data a, Data b => a = b
  | _, _ => False
  end.
Definition is_rec (c : option cell) : Prop := match c with Some (Rec _ _ _) => True | _ => False end.
Definition same_records (R : Z -> Z -> Prop) (m m' : heap) : Prop :=
  (forall o n, R o n -> exists c d, m o = Some c /\ m' n = Some d /\ same_cell R m c d) /\
  (forall o, is_rec (m o) -> exists n, R o n /\ is_rec (m' n) /\ forall n', R o n' -> n' = n) /\
  (forall n, is_rec (m' n) -> exists o, R o n /\ is_rec (m o) /\ forall o', R o' n -> o' = o).

(** ** Invariant *)
Section P.
Variable h : Z -> Z.
Definition vm (M : Z -> Z -> Prop) (v w : val) : Prop :=
  match v, w with Imm a, Imm b => a = b | Ref o, Ref n => M o n | _, _ => False end.
Definition cm (M : Z -> Z -> Prop) (c d : cell) : Prop :=
  match c, d with
  | Rec l f x, Rec l' f' x' => l = l' /\ x = x' /\ forall i, vm M (f i) (f' i)
  | Data a, Data b => a = b
  | _, _ => False
  end.
Lemma cm_mono (M M' : Z -> Z -> Prop) c d : (forall o n, M o n -> M' o n) -> cm M c d -> cm M' c d.
Proof.
  intros S. destruct c as [l f x|a], d as [l' f' x'|b]; cbn; try tauto. intros (A & B & C). split; [exact A|]. split; [exact B|].
  intros i. specialize (C i). destruct (f i), (f' i); cbn in *; auto.
Qed.
Record Inv (m : heap) (u : Z -> Prop) (m' : heap) (t : GhModel.table) (M : Z -> Z -> Prop) : Prop := {
  iG : exists hist, GhProof.Good h t hist /\ (forall k v, In (k, v) hist -> M k v);
  iA : forall o n, M o n -> u o;
  iL : forall o, m o <> None -> M o (GhModel.translate h t o);
  iC : forall o n c, M o n -> m o = Some c -> exists c', m' n = Some c' /\ cm M c c';
  iF : forall o n n', M o n -> M o n' -> is_rec (m o) -> n = n';
  iJ : forall o o' n, M o n -> M o' n -> is_rec (m o) -> m o' <> None -> o = o';
  iS : forall n, is_rec (m' n) -> exists o, M o n /\ is_rec (m o)
}.
Lemma upd_same {A} (f : Z -> A) k x : upd f k x k = x.
Proof. unfold upd. rewrite Z.eqb_refl. reflexivity. Qed.
Lemma upd_other {A} (f : Z -> A) k x j : j <> k -> upd f k x j = f j.
Proof. intros N. unfold upd. destruct (Z.eqb_spec j k); [contradiction|reflexivity]. Qed.

Lemma tr_cases t hist o : GhProof.Good h t hist -> In (o, GhModel.translate h t o) hist \/ (GhModel.translate h t o = o /\ forall v, ~ In (o, v) hist).
Proof.
  intros G. pose proof (GhProof.getkey_ok h t hist o G) as K. unfold GhModel.translate. destruct (GhModel.getkey h t o) as [v|]; [left; exact K|right; split; [reflexivity|exact K]].
Qed.
(** The part about the table when an offset is given *)
Lemma table_part m u m' t M off n t' m1 :
  Inv m u m' t M -> GhModel.adds h (if n =? off then [] else [(off, n)]) t = GhModel.Ok t' ->
  (forall o, o <> off -> m1 o = m o) ->
  let M' := fun a b => M a b \/ (a = off /\ b = n) in
  (exists hist, GhProof.Good h t' hist /\ (forall k v, In (k, v) hist -> M' k v)) /\
  (forall o, m1 o <> None -> M' o (GhModel.translate h t' o)).
Proof.
  intros I E Ho M'. destruct (iG _ _ _ _ _ I) as (hist & G & K).
  destruct (GhProof.adds_ok h (if n =? off then [] else [(off, n)]) t hist G) as [(t2 & E2 & G2)|[E2 _]]; [|rewrite E in E2; discriminate].
  rewrite E in E2. injection E2 as <-.
  assert (K' : forall k v, In (k, v) (hist ++ (if n =? off then [] else [(off, n)])) -> M' k v).
  { intros k v H. apply in_app_or in H as [H|H]; [left; apply K, H|]. destruct (n =? off); [destruct H|]. destruct H as [H|[]]. injection H as <- <-. right. split; reflexivity. }
  split; [exists (hist ++ (if n =? off then [] else [(off, n)])); split; [exact G2|exact K']|].
  intros o L. destruct (tr_cases t' _ o G2) as [H|[H N]]; [apply K', H|]. rewrite H. destruct (Z.eq_dec o off) as [->|Q].
  - destruct (Z.eqb_spec n off) as [->|Q]; [right; split; reflexivity|]. exfalso. apply (N n). apply in_or_app. right. left. reflexivity.
  - left. rewrite (Ho o Q) in L. pose proof (iL _ _ _ _ _ I o L) as X. destruct (tr_cases t hist o G) as [Y|[Y _]].
    + exfalso. apply (N _ (in_or_app _ _ _ (or_introl Y))).
    + rewrite Y in X. exact X.
Qed.
Lemma step_cre m u m' t M len off n t' :
  Inv m u m' t M -> ~ u off -> m off = None -> m' n = None ->
  GhModel.adds h (if n =? off then [] else [(off, n)]) t = GhModel.Ok t' ->
  let r := Rec len (fun _ => Imm 0) 0 in
  Inv (upd m off (Some r)) (fun x => u x \/ x = off) (upd m' n (Some r)) t' (fun a b => M a b \/ (a = off /\ b = n)).
Proof.
  intros I U F F' E r. pose proof (table_part m u m' t M off n t' (upd m off (Some r)) I E (fun o Q => upd_other _ _ _ _ Q)) as [T1 T2].
  assert (Z0 : forall b, ~ M off b) by (intros b H; apply U, (iA _ _ _ _ _ I _ _ H)).
  assert (NN : forall o b, M o b -> m o <> None -> b <> n).
  { intros o b H L ->. destruct (m o) as [c|] eqn:Q; [|contradiction]. destruct (iC _ _ _ _ _ I _ _ _ H Q) as (c' & X & _). rewrite F' in X. discriminate. }
  constructor.
  - exact T1.
  - intros o b [H|[-> _]]; [left; apply (iA _ _ _ _ _ I _ _ H)|right; reflexivity].
  - exact T2.
  - intros o b c [H|[-> ->]] Q.
    + assert (o <> off) by (intros ->; exact (Z0 _ H)). rewrite upd_other in Q by assumption. destruct (iC _ _ _ _ _ I _ _ _ H Q) as (c' & X & Y).
      exists c'. rewrite upd_other by (apply (NN o b H); congruence). split; [exact X|]. eapply cm_mono; [|exact Y]. intros; left; assumption.
    + rewrite upd_same in Q. injection Q as <-. exists r. rewrite upd_same. split; [reflexivity|]. cbn. repeat split; reflexivity.
  - intros o b b' [H|[-> ->]] [H'|[E1 E2]] L.
    + assert (o <> off) by (intros ->; exact (Z0 _ H)). rewrite upd_other in L by assumption. apply (iF _ _ _ _ _ I o); assumption.
    + subst. destruct (Z0 _ H).
    + destruct (Z0 _ H').
    + congruence.
  - intros o o' b [H|[-> ->]] [H'|[E1 E2]] L L'.
    + assert (o <> off) by (intros ->; exact (Z0 _ H)). assert (o' <> off) by (intros ->; exact (Z0 _ H')). rewrite upd_other in L, L' by assumption.
      apply (iJ _ _ _ _ _ I o o' b); assumption.
    + subst. assert (o <> off) by (intros ->; exact (Z0 _ H)). rewrite upd_other in L by assumption. destruct (NN o n H); [|reflexivity]. destruct (m o); [discriminate|destruct L].
    + assert (o' <> off) by (intros ->; exact (Z0 _ H')). rewrite upd_other in L' by assumption. destruct (NN o' n H' L'). reflexivity.
    + congruence.
  - intros b L. destruct (Z.eq_dec b n) as [->|Q].
    + exists off. split; [right; split; reflexivity|]. rewrite upd_same. exact Logic.I.
    + rewrite upd_other in L by exact Q. destruct (iS _ _ _ _ _ I b L) as (o & H & X). exists o. split; [left; exact H|].
      rewrite upd_other by (intros ->; exact (Z0 _ H)). exact X.
Qed.
Lemma step_enc m u m' t M d off n t' m1 m1' :
  Inv m u m' t M -> (m off = None -> ~ u off) -> exec (Enc d off) m = Some m1 -> exec (Enc d n) m' = Some m1' ->
  GhModel.adds h (if n =? off then [] else [(off, n)]) t = GhModel.Ok t' ->
  Inv m1 (fun x => u x \/ x = off) m1' t' (fun a b => M a b \/ (a = off /\ b = n)).
Proof.
  intros I U X X' E.
  assert (D : forall mm k mm1, exec (Enc d k) mm = Some mm1 -> (mm k = None \/ mm k = Some (Data d)) /\ mm1 k = Some (Data d) /\ forall x, x <> k -> mm1 x = mm x).
  { intros mm k mm1 Y. cbn [exec] in Y. destruct (mm k) as [[l f x|e]|] eqn:Q; [discriminate| |].
    - destruct (list_eq_dec Z.eq_dec d e) as [->|]; [|discriminate]. injection Y as <-. split; [right; reflexivity|]. split; [exact Q|reflexivity].
    - injection Y as <-. split; [left; reflexivity|]. split; [apply upd_same|]. intros x N. apply upd_other, N. }
  destruct (D _ _ _ X) as (A1 & A2 & A3). destruct (D _ _ _ X') as (B1 & B2 & B3). clear D X X'.
  destruct (table_part m u m' t M off n t' m1 I E A3) as [T1 T2].
  assert (Z0 : forall b, M off b -> m off = Some (Data d)) by (intros b H; destruct A1 as [A1|A1]; [destruct (U A1 (iA _ _ _ _ _ I _ _ H))|exact A1]).
  assert (UP : forall x c, m' x = Some c -> m1' x = Some c).
  { intros x c Q. destruct (Z.eq_dec x n) as [->|N]; [|rewrite B3 by exact N; exact Q]. destruct B1 as [B1|B1]; rewrite B1 in Q; [discriminate|]. rewrite B2. exact Q. }
  assert (UO : forall o b, M o b -> m1 o = m o).
  { intros o b H. destruct (Z.eq_dec o off) as [->|N]; [|apply A3, N]. rewrite A2, (Z0 _ H). reflexivity. }
  assert (NR : is_rec (m1 off) -> False) by (rewrite A2; intros []).
  constructor.
  - exact T1.
  - intros o b [H|[-> _]]; [left; apply (iA _ _ _ _ _ I _ _ H)|right; reflexivity].
  - exact T2.
  - intros o b c [H|[-> ->]] Q.
    + rewrite (UO _ _ H) in Q. destruct (iC _ _ _ _ _ I _ _ _ H Q) as (c' & Y & W). exists c'. split; [apply UP, Y|]. eapply cm_mono; [|exact W]. intros; left; assumption.
    + rewrite A2 in Q. injection Q as <-. exists (Data d). split; [exact B2|reflexivity].
  - intros o b b' [H|[-> ->]] [H'|[E1 E2]] L; try (subst; destruct (NR L)); try (destruct (NR L)).
    rewrite (UO _ _ H) in L. apply (iF _ _ _ _ _ I o); assumption.
  - intros o o' b [H|[-> ->]] [H'|[E1 E2]] L L'; try (destruct (NR L)).
    + rewrite (UO _ _ H) in L. rewrite (UO _ _ H') in L'. apply (iJ _ _ _ _ _ I o o' b); assumption.
    + subst. rewrite (UO _ _ H) in L. destruct (m o) as [c|] eqn:Q; [|destruct L]. destruct (iC _ _ _ _ _ I _ _ _ H Q) as (c' & Y & W). apply UP in Y. rewrite B2 in Y. injection Y as <-.
      destruct c; [destruct W|destruct L].
  - intros b L. destruct (Z.eq_dec b n) as [->|Q]; [rewrite B2 in L; destruct L|]. rewrite B3 in L by exact Q. destruct (iS _ _ _ _ _ I b L) as (o & H & Y). exists o. split; [left; exact H|].
    rewrite (UO _ _ H). exact Y.
Qed.
(** A record is changed or deleted *)
Lemma step_upd m u m' t M off c c' :
  Inv m u m' t M -> is_rec (m off) ->
  (match c, c' with Some r, Some r' => is_rec c /\ is_rec c' /\ cm M r r' | None, None => True | _, _ => False end) ->
  Inv (upd m off c) (fun x => u x \/ False) (upd m' (GhModel.translate h t off) c') t M.
Proof.
  intros I R P. set (n := GhModel.translate h t off). assert (L0 : m off <> None) by (intros Q; rewrite Q in R; exact R).
  pose proof (iL _ _ _ _ _ I off L0) as M0. fold n in M0.
  assert (LV : forall o, upd m off c o <> None -> m o <> None).
  { intros o L. destruct (Z.eq_dec o off) as [->|Q]; [exact L0|]. rewrite upd_other in L by exact Q. exact L. }
  assert (RV : forall o, is_rec (upd m off c o) -> is_rec (m o)).
  { intros o L. destruct (Z.eq_dec o off) as [->|Q]; [exact R|]. rewrite upd_other in L by exact Q. exact L. }
  constructor.
  - exact (iG _ _ _ _ _ I).
  - intros o b H. left. apply (iA _ _ _ _ _ I _ _ H).
  - intros o L. apply (iL _ _ _ _ _ I), LV, L.
  - intros o b d H Q. destruct (Z.eq_dec o off) as [->|N].
    + rewrite (iF _ _ _ _ _ I off b n H M0 R). rewrite upd_same in *. subst c. destruct c' as [r'|]; [|destruct P]. exists r'. split; [reflexivity|apply P].
    + rewrite upd_other in Q by exact N. destruct (iC _ _ _ _ _ I _ _ _ H Q) as (d' & Y & W). exists d'. split; [|exact W]. rewrite upd_other; [exact Y|].
      intros ->. apply N. symmetry. apply (iJ _ _ _ _ _ I off o n); [exact M0|exact H|exact R|congruence].
  - intros o b b' H H' L. apply (iF _ _ _ _ _ I o); [assumption|assumption|apply RV, L].
  - intros o o' b H H' L L'. apply (iJ _ _ _ _ _ I o o' b); [assumption|assumption|apply RV, L|apply LV, L'].
  - intros b L. destruct (Z.eq_dec b n) as [->|Q].
    + rewrite upd_same in L. exists off. split; [exact M0|]. rewrite upd_same. destruct c as [r|], c' as [r'|]; try contradiction; [apply P].
    + rewrite upd_other in L by exact Q. destruct (iS _ _ _ _ _ I b L) as (o & H & Y). exists o. split; [exact H|]. rewrite upd_other; [exact Y|].
      intros ->. apply Q. apply (iF _ _ _ _ _ I off b n H M0 R).
Qed.
Lemma rec_there m u m' t M off l f x : Inv m u m' t M -> m off = Some (Rec l f x) ->
  exists f', m' (GhModel.translate h t off) = Some (Rec l f' x) /\ forall i, vm M (f i) (f' i).
Proof.
  intros I Q. assert (L : m off <> None) by congruence. destruct (iC _ _ _ _ _ I _ _ _ (iL _ _ _ _ _ I off L) Q) as (c' & Y & W).
  destruct c' as [l' f' x'|]; [|destruct W]. destruct W as (-> & -> & W). exists f'. split; [exact Y|exact W].
Qed.
Lemma replay_inv : forall js m u m2 m' t M, original m u (map fst js) m2 -> Inv m u m' t M ->
  match replay h js m' t with
  | Done m2' t2 => exists u2 M2, Inv m2 u2 m2' t2 M2
  | Bad => False
  | _ => True
  end.
Proof.
  induction js as [|[o n] js IH]; intros m u m2 m' t M O I.
  - cbn in O. inversion O; subst. cbn. exists u, M. exact I.
  - cbn [map fst] in O. inversion O as [|? ? ? ? m1 ? P X O']; subst. cbn [replay].
    destruct o as [len off|off|off col v|off x|d off|len]; cbn [translate_op added] in *; [| | | | |destruct P].
    + cbn [exec] in *. destruct (m off) as [c|] eqn:Q; [discriminate|]. injection X as <-. destruct (m' n) as [c'|] eqn:Q'; [exact Logic.I|].
      destruct (GhModel.adds h (if n =? off then [] else [(off, n)]) t) as [t'| | |] eqn:E; try exact Logic.I.
      eapply IH; [exact O'|]. apply (step_cre m u m' t M len off n t'); assumption.
    + cbn [exec] in *. destruct (m off) as [[l f x|]|] eqn:Q; try discriminate. injection X as <-. destruct (rec_there _ _ _ _ _ _ _ _ _ I Q) as (f' & Y & W). rewrite Y.
      cbn [GhModel.adds]. eapply IH; [exact O'|]. apply (step_upd m u m' t M off None None I); [rewrite Q; exact Logic.I|exact Logic.I].
    + cbn [exec] in *. destruct (m off) as [[l f x|]|] eqn:Q; try discriminate. destruct (rec_there _ _ _ _ _ _ _ _ _ I Q) as (f' & Y & W). rewrite Y.
      destruct ((0 <=? col) && (col <? l)); [|discriminate]. injection X as <-. cbn [GhModel.adds]. eapply IH; [exact O'|].
      apply (step_upd m u m' t M off _ _ I); [rewrite Q; exact Logic.I|]. cbn [is_rec]. split; [exact Logic.I|]. split; [exact Logic.I|]. cbn [cm]. split; [reflexivity|]. split; [reflexivity|].
      intros i. unfold upd. destruct (i =? col); [|apply W]. destruct v as [z|r]; cbn; [reflexivity|]. apply (iL _ _ _ _ _ I). exact P.
    + cbn [exec] in *. destruct (m off) as [[l f x0|]|] eqn:Q; try discriminate. destruct (rec_there _ _ _ _ _ _ _ _ _ I Q) as (f' & Y & W). rewrite Y. injection X as <-.
      cbn [GhModel.adds]. eapply IH; [exact O'|]. apply (step_upd m u m' t M off _ _ I); [rewrite Q; exact Logic.I|].
      cbn [is_rec]. split; [exact Logic.I|]. split; [exact Logic.I|]. cbn [cm]. split; [reflexivity|]. split; [reflexivity|]. exact W.
    + destruct (exec (Enc d n) m') as [m1'|] eqn:X'; [|exact Logic.I].
      destruct (GhModel.adds h (if n =? off then [] else [(off, n)]) t) as [t'| | |] eqn:E; try exact Logic.I.
      eapply IH; [exact O'|]. apply (step_enc m u m' t M d off n t' m1 m1'); assumption.
Qed.
Definition closed (m : heap) : Prop := forall o l f x i r, m o = Some (Rec l f x) -> f i = Ref r -> m r <> None.
Lemma start m : closed m -> Inv m (fun x => m x <> None) m GhModel.init (fun a b => a = b /\ m a <> None).
Proof.
  intros C. pose proof (GhProof.init_good h) as G. constructor.
  - exists []. split; [exact G|]. intros k v [].
  - intros o n [_ H]. exact H.
  - intros o H. split; [reflexivity|exact H].
  - intros o n c [<- _] Q. exists c. split; [exact Q|]. destruct c as [l f x|d]; [|reflexivity]. split; [reflexivity|]. split; [reflexivity|].
    intros i. destruct (f i) as [z|r] eqn:Y; cbn; [reflexivity|]. split; [reflexivity|]. apply (C _ _ _ _ _ _ Q Y).
  - intros o n n' [<- _] [<- _] _. reflexivity.
  - intros o o' n [<- _] [<- _] _ _. reflexivity.
  - intros n H. exists n. split; [|exact H]. split; [reflexivity|]. destruct (m n); [discriminate|destruct H].
Qed.
End P.

(** For every hash function, starting database, run of operations and answers of the allocator: the
    replay does not touch a record or field that is not there; when memory and table suffice, the
    records that it leaves are those of the original run, one for one, and the table leads from each
    offset to its new one.
    Missing: runs in which an offset is used again (refuted below), failed creations (refuted below), and the freeing of data. *)
Theorem C74_replay_partial : forall h m0 ops ns m1, closed m0 -> length ns = length ops ->
  original m0 (fun x => m0 x <> None) ops m1 ->
  match replay h (combine ops ns) m0 GhModel.init with
  | Done m2 t => exists R, same_records R m1 m2 /\ forall o, m1 o <> None -> R o (GhModel.translate h t o)
  | Bad => False
  | _ => True
  end.
Proof.
  intros h m0 ops ns m1 C L O. assert (E : map fst (combine ops ns) = ops).
  { revert ns L. clear. induction ops as [|o ops IH]; intros [|n ns] L; try discriminate; [reflexivity|]. cbn. rewrite IH by (cbn in L; lia). reflexivity. }
  rewrite <- E in O. pose proof (replay_inv h _ _ _ _ _ _ _ O (start h m0 C)) as H.
  destruct (replay h (combine ops ns) m0 GhModel.init) as [m2 t| | |]; try exact H. destruct H as (u & M & I).
  exists (fun o n => M o n /\ m1 o <> None). split; [|intros o X; split; [apply (iL _ _ _ _ _ _ I), X|exact X]].
  split; [|split].
  - intros o n [A B]. destruct (m1 o) as [c|] eqn:Q; [|contradiction]. destruct (iC _ _ _ _ _ _ I _ _ _ A Q) as (d & Y & W). exists c, d. split; [reflexivity|]. split; [exact Y|].
    destruct c as [l f x|a], d as [l' f' x'|b]; cbn in *; try tauto. destruct W as (W1 & W2 & W3). split; [exact W1|]. split; [exact W2|]. intros i. specialize (W3 i).
    destruct (f i) as [z|r], (f' i) as [z'|r']; cbn in *; try tauto. destruct (m1 r) eqn:Z1; [left; split; [exact W3|discriminate]|right; reflexivity].
  - intros o X. assert (Y : m1 o <> None) by (intros Q; rewrite Q in X; exact X). exists (GhModel.translate h t o). pose proof (iL _ _ _ _ _ _ I o Y) as Z1.
    split; [split; assumption|]. split.
    + destruct (m1 o) as [c|] eqn:Q; [|destruct X]. destruct (iC _ _ _ _ _ _ I _ _ _ Z1 Q) as (d & D & W). rewrite D. destruct c; [|destruct X]. destruct d; [exact Logic.I|destruct W].
    + intros n' [A _]. apply (iF _ _ _ _ _ _ I o); assumption.
  - intros n X. destruct (iS _ _ _ _ _ _ I n X) as (o & A & B). assert (Y : m1 o <> None) by (intros Q; rewrite Q in B; exact B). exists o. split; [split; assumption|]. split; [exact B|].
    intros o' [A' B']. symmetry. apply (iJ _ _ _ _ _ _ I o o' n); assumption.
Qed.

(** An offset used again: a record is deleted and another one is created in its place.  The replay, given
    other offsets, sends the old offset to the copy of the first record: setting a field of the second
    record fails. *)
Definition reuse : list op := [Cre 1 100; Del 100; Cre 2 100; SetF 100 0 (Imm 7)].
Theorem C74_reuse_refuted : forall h,
  (exists m, fold_left (fun m o => match m with Some m => exec o m | None => None end) reuse (Some (fun _ => None)) = Some m /\
     m 100 = Some (Rec 2 (upd (fun _ => Imm 0) 0 (Imm 7)) 0)) /\
  replay h (combine reuse [200; 0; 300; 0]) (fun _ => None) GhModel.init = Bad.
Proof.
  intros h. split; [eexists; split; [cbn; reflexivity|reflexivity]|].
  pose proof (PropGh.C71_repeated_refuted h 100 200 300) as T. cbn [GhModel.adds] in T. unfold reuse. cbn [combine replay translate_op added exec].
  change (200 =? 100) with false. change (300 =? 100) with false. cbn iota. cbn [GhModel.adds].
  destruct (GhModel.addkey h GhModel.init 100 200) as [t1| | |] eqn:E1; cbn [GhModel.bind] in *; try contradiction.
  assert (T1 : GhModel.translate h t1 100 = 200).
  { assert (A1 : GhModel.adds h [(100, 200)] GhModel.init = GhModel.Ok t1) by (cbn [GhModel.adds]; rewrite E1; reflexivity).
    destruct (PropGh.C71_lookup_partial h _ _ A1 100) as (_ & _ & X). unfold GhModel.translate.
    assert (N : NoDup (map fst [(100, 200)])) by (constructor; [intros []|constructor]).
    rewrite (proj2 (X N 200) (or_introl eq_refl)). reflexivity. }
  rewrite T1. rewrite upd_same. rewrite (upd_other _ 200 None 300) by lia. rewrite (upd_other _ 200 _ 300) by lia. cbn iota beta.
  destruct (GhModel.addkey h t1 100 300) as [t2| | |] eqn:E2; cbn [GhModel.bind] in *; try contradiction. destruct T as [_ T2]. rewrite T2.
  rewrite (upd_other _ 300 _ 200) by lia. rewrite upd_same. reflexivity.
Qed.
Definition empty : heap := fun _ => None.
(** A creation that failed when the journal was written is tried again and may succeed: the replay then has
    a record more, that no record of the original run corresponds to. *)
Theorem C74_failed_refuted : forall h len n,
  exec (CreFail len) empty = Some empty /\
  match replay h [(CreFail len, n)] empty GhModel.init with
  | Done m _ => is_rec (m n) /\ forall R, ~ same_records R empty m
  | _ => False
  end.
Proof.
  intros h len n. split; [reflexivity|]. cbn [replay translate_op exec added GhModel.adds empty]. rewrite upd_same. split; [exact Logic.I|].
  intros R (_ & _ & S). destruct (S n) as (o & _ & X & _); [rewrite upd_same; exact Logic.I|]. exact X.
Qed.

(** A run that meets the hypotheses: a record with data and a reference, a second record with a string
    that is shared, one record deleted; the replay gets other offsets, one of them used again *)
Definition sample : list op :=
  [Cre 2 100; Enc [104; 105] 500; SetF 100 0 (Ref 500); Cre 1 140; SetF 100 1 (Ref 140); Enc [104; 105] 500; SetF 140 0 (Ref 500);
   Cre 1 180; Del 180; Cre 1 220; SetF 220 0 (Imm 9); Meta 220 16].
Example sample_original : exists m, original empty (fun x => empty x <> None) sample m.
Proof.
  eexists. unfold sample, empty.
  repeat (eapply original_cons; [cbn; try (intros; intuition (congruence || lia)); try exact Logic.I; try discriminate|cbn; reflexivity|]). apply original_nil.
Qed.
Example sample_replay : match replay GhModel.rehash_gint (combine sample [140; 900; 0; 100; 0; 900; 0; 300; 0; 300; 0; 0]) empty GhModel.init with
  | Done m t => GhModel.translate GhModel.rehash_gint t 100 = 140 /\ GhModel.translate GhModel.rehash_gint t 220 = 300 /\
      match m 140 with Some (Rec 2 f 0) => f 0 = Ref 900 /\ f 1 = Ref 100 | _ => False end /\
      match m 300 with Some (Rec 1 f 16) => f 0 = Imm 9 | _ => False end
  | _ => False end.
Proof. vm_compute. repeat split; reflexivity. Qed.

Print Assumptions C74_replay_partial.
Print Assumptions C74_reuse_refuted.
Print Assumptions C74_failed_refuted.
