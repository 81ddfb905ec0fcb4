(** Histories of encoding and freeing. *)
From Coq Require Import List ZArith Bool Lia.
From Verif Require Import StrModel StrSpec StrBase StrProof StrEnc StrFree.
Import ListNotations.
Open Scope Z_scope.

Lemma says_reads kb h w v : valid v -> says kb h w v -> reads kb h w v.
Proof.
  intros V. destruct w as [c|o|c|o]; simpl.
  - intros (s&n&A&B&->&_). unfold reads, decode_type, decode_copy, decode_len, decode_cstr, decode_lang, short_at. rewrite A.
    cbn [v_type v_data v_extra plain option_map]. rewrite !cstr_app by auto. repeat split; auto.
    rewrite app_length. simpl length. f_equal. lia.
  - intros (b&A&H). unfold reads, decode_type, decode_copy, decode_len, decode_cstr, decode_lang, long_at. rewrite A.
    rewrite (holds_type _ _ _ _ V H), (holds_size _ _ _ _ V H). destruct H as (_&_&D&E). rewrite D, Nat2Z.id, firstn_all.
    repeat split; auto. destruct (l_extra b), (v_extra v); try contradiction; auto. rewrite E. auto.
  - contradiction.
  - intros (k&b&->&A&H). unfold reads, decode_type, decode_copy, decode_len, decode_cstr, decode_lang, long_at. rewrite A.
    rewrite (holds_type _ _ _ _ V H), (holds_size _ _ _ _ V H). destruct H as (_&_&D&E). rewrite D, Nat2Z.id, firstn_all.
    repeat split; auto. destruct (l_extra b) as [w|], (v_extra v); try contradiction; auto.
    destruct w; simpl in *; try discriminate; rewrite E; auto.
Qed.

Section Hist.
  Variables nb knb : Z.
  Variable kb : option heap.
  Variable al : heap -> Z -> option Z.
  Variable ash : heap -> option Z.
  Hypothesis Hfresh : fresh_alloc al ash.
  Hypothesis Hkb : match kb with Some k => sane knb None None k | None => True end.

  Definition kbfind (v : value) : fres :=
    match kb with
    | None => FNone
    | Some k => find_bucket (length (longs k)) None k (buckets k (hashsum (v_data v) (v_extra v) mod knb)) (v_data v) (v_extra v) (v_type v)
    end.

  Lemma create_word enc h v h' w :
    find_create nb knb kb al enc h (v_data v) (v_extra v) (v_type v) = Some (h', Some w) ->
    match w with KLong o => kbfind v = FFound o | WLong o => kbfind v = FNone | _ => False end.
  Proof.
    unfold find_create. fold (kbfind v). destruct (kbfind v) eqn:Ek; try discriminate.
    - intros E; injection E as <- <-. auto.
    - cbv zeta. destruct (find_bucket _ _ _ _ _ _ _); try discriminate.
      + intros E; injection E as <- <-. auto.
      + destruct (al h _); [|discriminate]. destruct (v_extra v).
        * destruct (enc _ _) as [[h2 [x|]]|]; try discriminate.
          destruct (match x with WLong _ => _ | _ => _ end); [|discriminate]. intros E; injection E as <- <-. auto.
        * intros E; injection E as <- <-. auto.
  Qed.

  Lemma encode_word h v h' w : encode nb knb kb al ash h (v_type v) (v_data v) (v_extra v) = Some (h', Some w) ->
    match w with KLong o => kbfind v = FFound o | WLong o => kbfind v = FNone | WShort _ => True | KShort _ => False end.
  Proof.
    unfold encode. intros E.
    destruct (v_extra v) as [e|] eqn:Hx.
    - rewrite <- Hx in E. apply create_word in E. destruct w; auto.
    - destruct (_ && _) in E.
      + unfold encode_short in E. destruct (ash h); [|discriminate]. injection E as <- <-. auto.
      + rewrite <- Hx in E at 1. assert (E' := E). clear E.
        assert (E : find_create nb knb kb al (fun _ _ => None) h (v_data v) (v_extra v) (v_type v) = Some (h', Some w)) by (rewrite Hx in *; exact E').
        apply create_word in E. destruct w; auto.
  Qed.

  Definition entry (h : heap) (p : value * word) : Prop :=
    valid (fst p) /\ says kb h (snd p) (fst p) /\
    (forall o, snd p = WLong o -> in_chain h (bucket_of nb (fst p)) o) /\
    (forall c, snd p = WShort c -> is_short (fst p) /\ forall k b, aget (longs h) k = Some b -> l_extra b <> Some (WShort c)) /\
    match snd p with KLong o => kbfind (fst p) = FFound o | WLong o => kbfind (fst p) = FNone | WShort _ => True | KShort _ => False end.

  Lemma entry_keeps h h' p : sane nb kb None h -> keeps h h' -> cells h h' -> chains_kept h h' -> entry h p -> entry h' p.
  Proof.
    intros S K C Ch (V&Sy&In1&Cl&Kf). split; [auto|]. split; [eapply says_keeps; eauto|]. split; [intros o Ho; apply Ch; auto|]. split; [|auto].
    intros c Hc. destruct (Cl c Hc) as [A B]. split; auto. intros k b Ak Ex.
    destruct (C k b c Ak Ex) as [X|(b0&B0&E0)]; [|eapply B; eauto].
    rewrite Hc in Sy. destruct Sy as (s&n&Y&_). congruence.
  Qed.

  Lemma history_inv h L : history nb knb kb al ash valid h L -> sane nb kb None h /\ forall p, In p L -> entry h p.
  Proof.
    induction 1 as [|h L v h' w Hh [S I] V E|h L v h' Hh [S I] V E|h L v w h' L' Hh [S I] Hi E Hd].
    - split; [apply sane_empty|contradiction].
    - pose proof (encode_ok nb knb kb al ash Hfresh Hkb h v S V) as X. rewrite E in X. destruct X as (S'&K&C&Ch&Sy&Iw&Sw).
      split; auto. intros p [<-|Hp].
      + split; [auto|]. split; [auto|]. split; [auto|]. simpl fst; simpl snd. split; [|eapply encode_word; eauto].
        intros c Hc. destruct (Sw c Hc) as (F&Hs&El). split; [auto|]. intros k b A Ex. rewrite El in A.
        apply (extra_short nb kb None h k b c S ltac:(discriminate) A Ex). auto.
      + apply (entry_keeps h h'); auto.
    - pose proof (encode_ok nb knb kb al ash Hfresh Hkb h v S V) as X. rewrite E in X. destruct X as (S'&K&C&Ch&_).
      split; auto. intros p Hp. apply (entry_keeps h h'); auto.
    - assert (Hn : kb = None) by (destruct kb; [discriminate|auto]).
      assert (S0 : sane nb None None h) by (rewrite <- Hn at 1; auto).
      assert (E0 : free_encoded nb None h w = Some h') by (rewrite <- Hn at 1; auto).
      destruct (I _ Hi) as (V&Sy&_&Cl&_). simpl fst in *; simpl snd in *.
      rewrite Hn in Sy. destruct (free_ok nb h w v S0 V Sy) as (h2&E2&S2&K2&Oth).
      { intros c k b Hc. apply (proj2 (Cl c Hc)). }
      rewrite E0 in E2. injection E2 as <-. split; [rewrite Hn at 1; auto|]. intros p Hp. apply Hd in Hp as (Hp&Hw&Hpl).
      destruct (I p Hp) as (V'&Sy'&In'&Cl'&Kf'). rewrite Hn in Sy'. destruct (Oth (snd p) (fst p) V' Sy' Hw) as [O1 O2].
      + intros c k b Hc. apply (proj2 (Cl' c Hc)).
      + intros e Ee Ep. apply Hpl. eauto.
      + split; [auto|]. split; [rewrite Hn; auto|]. split; [intros o Ho; apply O2; auto|]. split; [|auto].
        intros c Hc. destruct (Cl' c Hc) as [A B]. split; auto. intros k b Ak. destruct (proj1 K2 _ _ Ak) as (b'&Ak'&(_&_&Xe&_)).
        rewrite Xe. eapply B; eauto.
  Qed.

  Lemma reads_fun h w v v' : reads kb h w v -> reads kb h w v' -> v = v'.
  Proof.
    intros (A&B&_&_&C) (A'&B'&_&_&C'). destruct v, v'; simpl in *. congruence.
  Qed.

  Lemma history_reads h L v w : history nb knb kb al ash valid h L -> In (v, w) L -> reads kb h w v.
  Proof.
    intros H Hi. destruct (history_inv h L H) as [_ I]. destruct (I _ Hi) as (V&S&_). apply says_reads; auto.
  Qed.

  Lemma history_one h L v w v' w' : history nb knb kb al ash valid h L -> In (v, w) L -> In (v', w') L ->
    (w = w' -> v = v') /\ (~ is_short v -> v = v' -> w = w').
  Proof.
    intros H Hi Hi'. split.
    - intros <-. eapply reads_fun; eapply history_reads; eauto.
    - intros Hs <-. destruct (history_inv h L H) as [S I].
      destruct (I _ Hi) as (V&Sy&In1&Cl&Kf), (I _ Hi') as (V'&Sy'&In1'&Cl'&Kf'). simpl fst in *; simpl snd in *.
      destruct w as [c|o|c|o]; [destruct (Hs (proj1 (Cl c eq_refl)))| |contradiction|];
        (destruct w' as [c'|o'|c'|o']; [destruct (Hs (proj1 (Cl' c' eq_refl)))| |contradiction|]); try congruence.
      f_equal. destruct (In1 o eq_refl) as (cs&Hc&Ho), (In1' o' eq_refl) as (cs'&Hc'&Ho').
      rewrite (chain_fun _ _ _ _ Hc' Hc) in *. destruct Sy as (b&A&B), Sy' as (b'&A'&B').
      destruct (s_chain _ _ _ _ S (bucket_of nb v)) as (cs2&Hc2&G). rewrite (chain_fun _ _ _ _ Hc2 Hc) in G.
      eapply (good_uniq _ _ _ _ _ _ G o o'); eauto.
  Qed.

  Lemma history_encode h L v : history nb knb kb al ash valid h L -> valid v ->
    encode nb knb kb al ash h (v_type v) (v_data v) (v_extra v) <> None.
  Proof.
    intros H V. destruct (history_inv h L H) as [S _]. pose proof (encode_ok nb knb kb al ash Hfresh Hkb h v S V) as X.
    destruct (encode _ _ _ _ _ _ _ _ _); congruence.
  Qed.
  Lemma history_free h L v w : history nb knb kb al ash valid h L -> In (v, w) L -> kb = None -> free_encoded nb kb h w <> None.
  Proof.
    intros H Hi Hk. destruct (history_inv h L H) as [S I]. destruct (I _ Hi) as (V&Sy&_&Cl&_). rewrite Hk in *. simpl fst in *; simpl snd in *.
    destruct (free_ok nb h w v S V Sy) as (h2&E2&_); [|congruence]. intros c k b Hc. apply (proj2 (Cl c Hc)).
  Qed.
End Hist.

Lemma encode_full nb knb kb al ash h v h' :
  encode nb knb kb al ash h (v_type v) (v_data v) (v_extra v) = Some (h', None) ->
  (exists g n, al g n = None) \/ (exists g, ash g = None).
Proof.
  assert (Sh : forall g s g', encode_short ash g s = Some (g', None) -> exists g, ash g = None).
  { intros g s g' E. unfold encode_short in E. destruct (ash g) eqn:A; [discriminate|]. eauto. }
  assert (Fc : forall enc g d x t g', find_create nb knb kb al enc g d x t = Some (g', None) ->
     (exists g n, al g n = None) \/ exists g e g', x = Some e /\ enc g e = Some (g', None)).
  { intros enc g d x t g' E. unfold find_create in E. destruct (match kb with None => _ | Some _ => _ end); try discriminate.
    cbv zeta in E. destruct (find_bucket _ _ _ _ _ _ _); try discriminate. destruct (al g _) eqn:A; [|eauto].
    destruct x as [e|]; [|discriminate]. destruct (enc _ e) as [[h2 [w|]]|] eqn:Ee; try discriminate.
    - destruct (match w with WLong _ => _ | _ => _ end); discriminate.
    - right. eauto. }
  unfold encode. destruct (v_extra v) as [e|].
  - intros E. apply Fc in E as [E|(g&e'&g'&_&E)]; [auto|]. unfold encode_plain in E. destruct (_ <? _) in E; [right; eauto|].
    apply Fc in E as [E|(?&?&?&?&?)]; [auto|discriminate].
  - destruct (_ && _); intros E; [right; eauto|]. apply Fc in E as [E|(?&?&?&?&?)]; [auto|discriminate].
Qed.

Lemma made_sane nb kb : made nb kb -> match kb with Some k => sane nb None None k | None => True end.
Proof.
  destruct kb as [k|]; auto. intros (al&ash&L&F&H). eapply (history_inv nb nb None al ash F I k L H).
Qed.
