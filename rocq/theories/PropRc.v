(** C74, end to end: operations are logged, the file is cut off anywhere, the journal is read and applied. *)
From Coq Require Import ZArith Lia List Bool Arith.
From Verif Require GhModel JnModel PropJn.
From Verif Require Import RpModel PropRp.
Import ListNotations.
Open Scope Z_scope.

(** The operation an entry stands for (recover_journal 608-680); [dec] reads an encoded value as an
    immediate value or an offset (isptr and the type bits), any function here.  Stored data is what the
    entry holds: its type, lengths and bytes. *)
Definition off_of (dec : Z -> val) (enc : Z) : Z := match dec enc with Ref o => o | Imm _ => 0 end.
Definition to_op (dec : Z -> val) (e : JnModel.entry) : op :=
  match e with
  | JnModel.ECre l o => if o =? 0 then CreFail l else Cre l o
  | JnModel.EDel o => Del o
  | JnModel.ESet o c v => SetF o c (dec v)
  | JnModel.EMeta o x => Meta o x
  | JnModel.EInt b enc => Enc (3 :: b) (off_of dec enc)
  | JnModel.EDouble b enc => Enc (4 :: b) (off_of dec enc)
  | JnModel.EStr t s x enc => Enc (t :: Z.of_nat (length s) :: s ++ x) (off_of dec enc)
  | JnModel.EOther t enc => Enc [t] (off_of dec enc)
  end.
Lemma original_prefix : forall ops k m u m1, original m u ops m1 -> exists mk, original m u (firstn k ops) mk.
Proof.
  induction ops as [|o ops IH]; intros k m u m1 H.
  - exists m. rewrite firstn_nil. constructor.
  - destruct k as [|k]; [exists m; constructor|]. inversion H as [|? ? ? ? m2 ? P X O]; subst. destruct (IH k _ _ _ O) as (mk & Y). exists mk. cbn [firstn]. econstructor; eassumption.
Qed.
(** A process that logs dies with [n] bytes of its operations in the file.  The replay rebuilds the
    database as it was after the [k] operations that are in the file whole.
    Missing: as for C73 and C74. *)
Theorem C74_crash_partial : forall dec h m0 jops es m1 n, closed m0 ->
  Forall PropJn.logged jops -> map Some es = map PropJn.entry_of jops ->
  original m0 (fun x => m0 x <> None) (map (to_op dec) es) m1 ->
  exists k mk, (k <= length jops)%nat /\ (length (JnModel.journal (firstn k jops)) <= n)%nat /\
    (k < length jops -> n < length (JnModel.journal (firstn (S k) jops)))%nat /\
    original m0 (fun x => m0 x <> None) (map (to_op dec) (firstn k es)) mk /\
    forall ns, length ns = k ->
    match replay h (combine (map (to_op dec) (fst (JnModel.read_journal (firstn n (JnModel.journal jops))))) ns) m0 GhModel.init with
    | Done m2 t => exists R, same_records R mk m2 /\ forall o, mk o <> None -> R o (GhModel.translate h t o)
    | Bad => False
    | _ => True
    end.
Proof.
  intros dec h m0 jops es m1 n C F E O. destruct (PropJn.C73_crash_partial jops n F) as (k & es' & ok & A & B & D & G & K & _).
  destruct (original_prefix _ k _ _ _ O) as (mk & Ok). rewrite firstn_map in Ok. exists k, mk. split; [exact B|]. split; [exact G|]. split; [exact K|]. split; [exact Ok|].
  assert (Q : es' = firstn k es).
  { rewrite <- firstn_map, <- E, firstn_map in D. revert D. generalize (firstn k es). clear. induction es' as [|a l IH]; intros [|b r] H; try discriminate; [reflexivity|].
    cbn in H. injection H as -> H. f_equal. apply IH, H. }
  intros ns Hn. rewrite A. cbn [fst]. rewrite Q. apply C74_replay_partial; [exact C| |exact Ok].
  rewrite map_length, <- Q. apply (f_equal (@length _)) in D. rewrite !map_length, firstn_length in D. lia.
Qed.
(** A case: values with the lowest bits 0 are offsets *)
Definition dec0 (z : Z) : val := if (z mod 8 =? 0) && negb (z =? 0) then Ref z else Imm z.
Definition run : list JnModel.op :=
  [JnModel.OCreate 2 4096; JnModel.OStr 5 [104; 105] [] 7000; JnModel.OSet 4096 0 7000; JnModel.OCreate 1 5120; JnModel.OSet 4096 1 5120; JnModel.OSet 5120 0 11].
Definition run_entries : list JnModel.entry :=
  [JnModel.ECre 2 4096; JnModel.EStr 5 [104; 105] [] 7000; JnModel.ESet 4096 0 7000; JnModel.ECre 1 5120; JnModel.ESet 4096 1 5120; JnModel.ESet 5120 0 11].
Example run_ok : Forall PropJn.logged run /\ map Some run_entries = map PropJn.entry_of run /\
  exists m, original empty (fun x => empty x <> None) (map (to_op dec0) run_entries) m.
Proof.
  split; [|split; [reflexivity|]].
  - unfold run. repeat (apply Forall_cons; [cbn; unfold PropJn.word; cbn; lia || (split; [tauto|lia])|]). apply Forall_nil.
  - eexists. unfold run_entries, empty. cbn [map].
    repeat (eapply original_cons; [cbn; try (intros; intuition (congruence || lia)); try exact Logic.I; try discriminate|cbn; reflexivity|]). apply original_nil.
Qed.
(** The last operation is cut off *)
Example run_cut : match replay GhModel.rehash_gint (combine (map (to_op dec0) (fst (JnModel.read_journal (firstn 29 (JnModel.journal run))))) [800; 900; 0; 4096; 0]) empty GhModel.init with
  | Done m t => match m 800 with Some (Rec 2 f 0) => f 0 = Ref 900 /\ f 1 = Ref 4096 | _ => False end
  | _ => False end.
Proof. vm_compute. repeat split; reflexivity. Qed.
Print Assumptions C74_crash_partial.
