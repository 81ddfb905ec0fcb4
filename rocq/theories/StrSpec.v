(** What the strings of the database should do, in terms of the calls. *)
From Coq Require Import List ZArith Bool.
From Verif Require Import StrModel.
Import ListNotations.
Open Scope Z_scope.

(** A value: its type, its bytes (with the final NUL, but for blobs), and the language, XSD type,
    namespace prefix or blob type, if there is one. *)
Record value := { v_type : Z; v_data : bytes; v_extra : option bytes }.

(** What a caller can pass: C strings, and any bytes as a blob. *)
Definition c_string (s : bytes) : Prop := ~ In 0 s.
Definition valid (v : value) : Prop :=
  (v_type v = BLOB \/
   (v_type v = STR \/ v_type v = XML \/ v_type v = URI) /\ exists s, c_string s /\ v_data v = s ++ [0]) /\
  (forall e, v_extra v = Some e -> c_string e).
Definition plain (s : bytes) : value := {| v_type := STR; v_data := s ++ [0]; v_extra := None |}.
(** Strings which get a cell of their own: up to 31 chars, without language. *)
Definition is_short (v : value) : Prop :=
  v_type v = STR /\ v_extra v = None /\ Z.of_nat (length (v_data v)) <= SHORTSTR_SIZE.

(** All that can be read back from a word. *)
Definition reads (kb : option heap) (h : heap) (w : word) (v : value) : Prop :=
  decode_type kb h w = Some (v_type v) /\
  decode_copy kb h w = Some (v_data v) /\
  decode_len kb h w = Some (Z.of_nat (length (v_data v)) - 1) /\
  decode_cstr kb h w = Some (cstr (v_data v)) /\
  decode_lang kb h w = Some (v_extra v).

Section History.
  Variables nb knb : Z.
  Variable kb : option heap.
  Variable al : heap -> Z -> option Z.
  Variable ash : heap -> option Z.
  (** The values that are encoded. *)
  Variable P : value -> Prop.

  (** The heap after any number of calls which encode values and free words, in any order, and
      the list of values with the words returned for them.  When a word is freed, it may not be
      used any more, nor may one for the plain string that was its extra part. *)
  Inductive history : heap -> list (value * word) -> Prop :=
  | H_start : history empty_heap []
  | H_encode h L v h' w : history h L -> P v ->
      encode nb knb kb al ash h (v_type v) (v_data v) (v_extra v) = Some (h', Some w) ->
      history h' ((v, w) :: L)
  | H_full h L v h' : history h L -> P v ->
      encode nb knb kb al ash h (v_type v) (v_data v) (v_extra v) = Some (h', None) ->
      history h' L
  | H_free h L v w h' L' : history h L -> In (v, w) L -> free_encoded nb kb h w = Some h' ->
      (forall p, In p L' <-> In p L /\ snd p <> w /\ ~ (exists e, v_extra v = Some e /\ fst p = plain e)) ->
      history h' L'.
End History.

(** The allocators return what is not in use. *)
Definition fresh_alloc (al : heap -> Z -> option Z) (ash : heap -> option Z) : Prop :=
  (forall h n o, al h n = Some o -> aget (longs h) o = None) /\
  (forall h o, ash h = Some o -> aget (shorts h) o = None).

(** A knowledge base that can be attached: made by encoding and freeing, too. *)
Definition made (nb : Z) (kb : option heap) : Prop :=
  match kb with
  | None => True
  | Some k => exists al ash L, fresh_alloc al ash /\ history nb nb None al ash valid k L
  end.
