(** C49: encoded strings can be read back, and long ones are stored under one word. *)
From Coq Require Import List ZArith Bool Lia.
From Verif Require Import StrModel StrSpec StrBase StrProof StrEnc StrFree StrHist.
Import ListNotations.
Open Scope Z_scope.

(** After any calls that encode values and free words, with any allocator that does not return
    what is in use, and with any knowledge base attached: each word the caller may still use
    reads back as the value it was returned for. *)
Theorem C49_reads_back : forall nb knb kb al ash h L v w,
  fresh_alloc al ash -> made knb kb -> history nb knb kb al ash valid h L -> In (v, w) L ->
  reads kb h w v.
Proof. intros nb knb kb al ash h L v w F M H. exact (history_reads nb knb kb al ash F (made_sane _ _ M) h L v w H). Qed.

(** A word stands for one value, and a value for one word, unless it is a string of less than 32
    chars without language. *)
Theorem C49_one_word : forall nb knb kb al ash h L v w v' w',
  fresh_alloc al ash -> made knb kb -> history nb knb kb al ash valid h L -> In (v, w) L -> In (v', w') L ->
  (w = w' -> v = v') /\ (~ is_short v -> v = v' -> w = w').
Proof. intros nb knb kb al ash h L v w v' w' F M H. exact (history_one nb knb kb al ash F (made_sane _ _ M) h L v w v' w' H). Qed.

(** Encoding reads nothing that is not there; it fails only when there is no space. *)
Theorem C49_encode_defined : forall nb knb kb al ash h L v,
  fresh_alloc al ash -> made knb kb -> history nb knb kb al ash valid h L -> valid v ->
  encode nb knb kb al ash h (v_type v) (v_data v) (v_extra v) <> None.
Proof. intros nb knb kb al ash h L v F M H. exact (history_encode nb knb kb al ash F (made_sane _ _ M) h L v H). Qed.

Theorem C49_encode_fails_when_full : forall nb knb kb al ash h v h',
  encode nb knb kb al ash h (v_type v) (v_data v) (v_extra v) = Some (h', None) ->
  (exists g n, al g n = None) \/ (exists g, ash g = None).
Proof. exact encode_full. Qed.

(** Without a knowledge base a word that may be used can be freed. *)
Theorem C49_free_defined : forall nb knb al ash h L v w,
  fresh_alloc al ash -> history nb knb None al ash valid h L -> In (v, w) L ->
  free_encoded nb None h w <> None.
Proof. intros nb knb al ash h L v w F H Hi. exact (history_free nb knb None al ash F I h L v w H Hi eq_refl). Qed.

(** ** Cases *)
(** An allocator. *)
Definition next {A} (l : list (Z * A)) : Z := 1 + fold_right Z.max 0 (map fst l).
Definition al0 (h : heap) (n : Z) : option Z := Some (next (longs h)).
Definition ash0 (h : heap) : option Z := Some (next (shorts h)).
Lemma next_fresh {A} (l : list (Z * A)) : aget l (next l) = None.
Proof.
  assert (H : forall k a, In (k, a) l -> k < next l).
  { unfold next. induction l as [|[j b] l IH]; intros k a Hi; [contradiction|]. cbn [map fst fold_right]. destruct Hi as [E|Hi].
    - injection E as -> ->. lia.
    - specialize (IH k a Hi). lia. }
  destruct (aget l (next l)) eqn:E; auto. apply aget_in in E. apply H in E. lia.
Qed.
Lemma fresh0 : fresh_alloc al0 ash0.
Proof. split; intros; injection H as <-; apply next_fresh. Qed.

(** "http://example.org/vocabulary/v1#" and "hhhh". *)
Definition prefix : bytes :=
  [104;116;116;112;58;47;47;101;120;97;109;112;108;101;46;111;114;103;47;118;111;99;97;98;117;108;97;114;121;47;118;49;35].
Definition uri : value := {| v_type := URI; v_data := [104;104;104;104;0]; v_extra := Some prefix |}.
Definition name : value := plain [65;110;110;97].
Definition tagged : value := {| v_type := STR; v_data := [104;101;105;0]; v_extra := Some [101;115;116] |}.

Lemma c_string_b s : forallb (fun c => negb (c =? 0)) s = true -> c_string s.
Proof. intros H Hi. rewrite forallb_forall in H. specialize (H 0 Hi). discriminate. Qed.
Lemma valid_prefix : valid (plain prefix). Proof. apply valid_plain, c_string_b. reflexivity. Qed.
Lemma valid_name : valid name. Proof. apply valid_plain, c_string_b. reflexivity. Qed.
Lemma valid_uri : valid uri.
Proof.
  split.
  - right. split; [simpl; auto|]. exists [104;104;104;104]. split; [apply c_string_b|]; reflexivity.
  - intros e E. injection E as <-. apply c_string_b. reflexivity.
Qed.
Lemma valid_tagged : valid tagged.
Proof.
  split.
  - right. split; [simpl; auto|]. exists [104;101;105]. split; [apply c_string_b|]; reflexivity.
  - intros e E. injection E as <-. apply c_string_b. reflexivity.
Qed.

Definition enc0 (kb : option heap) (h : heap) (v : value) : option (heap * option word) :=
  encode 25000 25000 kb al0 ash0 h (v_type v) (v_data v) (v_extra v).
Fixpoint enc_all (kb : option heap) (h : heap) (vs : list value) : option (heap * list word) :=
  match vs with
  | [] => Some (h, [])
  | v :: vs' => match enc0 kb h v with
                | Some (h', Some w) => match enc_all kb h' vs' with Some (g, ws) => Some (g, w :: ws) | None => None end
                | _ => None
                end
  end.
Lemma enc_all_history kb vs : Forall valid vs -> forall h L g ws, history 25000 25000 kb al0 ash0 valid h L ->
  enc_all kb h vs = Some (g, ws) -> history 25000 25000 kb al0 ash0 valid g (rev (combine vs ws) ++ L).
Proof.
  induction 1 as [|v vs V _ IH]; intros h L g ws H E; simpl in E.
  - injection E as <- <-. auto.
  - destruct (enc0 kb h v) as [[h' [w|]]|] eqn:Ev; try discriminate. destruct (enc_all kb h' vs) as [[g' ws']|] eqn:E'; [|discriminate].
    injection E as <- <-. simpl. rewrite <- app_assoc. apply (IH h'); auto. simpl. eapply H_encode; eauto.
Qed.

Definition vals : list value := [name; tagged; uri; name; uri; plain prefix].
Example C49_case : exists h L, history 25000 25000 None al0 ash0 valid h L /\ length L = 6%nat /\
  In (uri, WLong 2) L /\ In (name, WShort 1) L /\ In (name, WShort 3) L /\ reads None h (WLong 2) uri /\
  free_encoded 25000 None h (WLong 2) <> None.
Proof.
  assert (V : Forall valid vals) by (repeat (apply Forall_cons; [auto using valid_prefix, valid_name, valid_uri, valid_tagged|]); apply Forall_nil).
  destruct (enc_all None empty_heap vals) as [[h ws]|] eqn:E; [|vm_compute in E; discriminate].
  pose proof (enc_all_history None vals V empty_heap [] h ws (H_start _ _ _ _ _ _) E) as H. rewrite app_nil_r in H.
  assert (Ew : ws = [WShort 1; WLong 1; WLong 2; WShort 3; WLong 2; WLong 4]).
  { assert (X : option_map snd (enc_all None empty_heap vals) = Some [WShort 1; WLong 1; WLong 2; WShort 3; WLong 2; WLong 4]) by (vm_compute; reflexivity).
    rewrite E in X. injection X; auto. }
  subst ws. exists h, (rev (combine vals [WShort 1; WLong 1; WLong 2; WShort 3; WLong 2; WLong 4])).
  assert (Hi : In (uri, WLong 2) (rev (combine vals [WShort 1; WLong 1; WLong 2; WShort 3; WLong 2; WLong 4]))) by (simpl; tauto).
  split; [auto|]. split; [reflexivity|]. split; [auto|]. split; [simpl; tauto|]. split; [simpl; tauto|]. split.
  - eapply C49_reads_back; eauto using fresh0. exact I.
  - eapply C49_free_defined; eauto using fresh0.
Qed.

(** ** What is false *)
(** A long string may be stored twice: a namespace prefix which hashes to the bucket of the URI
    it is the prefix of (of the 25000 buckets of a database of the default size) is dropped from
    its chain when the URI is put there, so it is not found again. *)
Theorem C49_stored_once_refuted : exists h L o1 o2,
  history 25000 25000 None al0 ash0 valid h L /\ o1 <> o2 /\
  reads None h (WLong o1) (plain prefix) /\ reads None h (WLong o2) (plain prefix).
Proof.
  assert (V : Forall valid [uri; plain prefix]) by (repeat (apply Forall_cons; [auto using valid_prefix, valid_name, valid_uri, valid_tagged|]); apply Forall_nil).
  destruct (enc_all None empty_heap [uri; plain prefix]) as [[h ws]|] eqn:E; [|vm_compute in E; discriminate].
  pose proof (enc_all_history None _ V empty_heap [] h ws (H_start _ _ _ _ _ _) E) as H.
  exists h, (rev (combine [uri; plain prefix] ws) ++ []), 2, 3. split; [exact H|]. split; [lia|].
  vm_compute in E. injection E as <- <-. split; vm_compute; repeat split; reflexivity.
Qed.

(** With a knowledge base attached, freeing a word accesses what is not there. *)
Theorem C49_free_with_kb_refuted : exists k h L v w,
  made 25000 (Some k) /\ history 25000 25000 (Some k) al0 ash0 valid h L /\ In (v, w) L /\
  free_encoded 25000 (Some k) h w = None.
Proof.
  exists empty_heap.
  destruct (enc0 (Some empty_heap) empty_heap uri) as [[h [w|]]|] eqn:E; try (vm_compute in E; discriminate).
  exists h, [(uri, w)], uri, w. split.
  - exists al0, ash0, []. split; [exact fresh0|constructor].
  - split; [|split; [left; auto|reflexivity]]. eapply H_encode; [constructor|exact valid_uri|exact E].
Qed.

(** Freeing a URI frees its prefix, although the caller holds a word for that, too. *)
Theorem C49_prefix_freed_refuted : exists h L w p h',
  history 25000 25000 None al0 ash0 valid h L /\ In (uri, w) L /\ In (plain prefix, p) L /\
  free_encoded 25000 None h w = Some h' /\ decode_cstr None h' p = None.
Proof.
  assert (V : Forall valid [plain prefix; uri]) by (repeat (apply Forall_cons; [auto using valid_prefix, valid_name, valid_uri, valid_tagged|]); apply Forall_nil).
  destruct (enc_all None empty_heap [plain prefix; uri]) as [[h ws]|] eqn:E; [|vm_compute in E; discriminate].
  pose proof (enc_all_history None _ V empty_heap [] h ws (H_start _ _ _ _ _ _) E) as H.
  assert (Ew : ws = [WLong 1; WLong 2]) by (vm_compute in E; injection E as _ <-; reflexivity).
  subst ws. destruct (free_encoded 25000 None h (WLong 2)) as [h'|] eqn:Ef.
  - exists h, (rev (combine [plain prefix; uri] [WLong 1; WLong 2]) ++ []), (WLong 2), (WLong 1), h'.
    split; [exact H|]. split; [simpl; auto|]. split; [simpl; auto|]. split; [exact Ef|].
    vm_compute in E. injection E as <-. vm_compute in Ef. injection Ef as <-. reflexivity.
  - exfalso. vm_compute in E. injection E as <-. vm_compute in Ef. discriminate.
Qed.

Print Assumptions C49_reads_back.
Print Assumptions C49_one_word.
Print Assumptions C49_encode_defined.
Print Assumptions C49_encode_fails_when_full.
Print Assumptions C49_free_defined.
Print Assumptions C49_stored_once_refuted.
Print Assumptions C49_free_with_kb_refuted.
Print Assumptions C49_prefix_freed_refuted.
