(** Comparison of two long strings when strings are not interned.
    Code: Reasoner/unify.c 1013-1037 (uniquestrflag=0 branch of wr_equal_ptr_primitives);
    Db/dbdata.c 3300-3460 (decoders, the text without its terminating 0 and its length). *)
From Coq Require Import List ZArith Bool.
Import ListNotations.
Open Scope Z_scope.

(** What the decoders return for a long string: type code, language/prefix string (NULL if
    absent) and text.  Bytes are non-zero inside a C string. *)
Record lstr := { ls_type : Z; ls_lang : option (list Z); ls_text : list Z }.

Definition lang_len (s : lstr) : nat := match ls_lang s with Some l => length l | None => O end.

(** memcmp(s1,s2,n)==0 on two 0-terminated buffers.  [None]: the comparison runs past the
    end of both buffers without finding a difference (an out-of-bounds read). *)
Fixpoint memcmp0 (s1 s2 : list Z) (n : nat) : option bool :=
  match n with
  | O => Some true
  | S n' =>
      match s1, s2 with
      | x :: s1', y :: s2' => if Z.eqb x y then memcmp0 s1' s2' n' else Some false
      | _, _ => None
      end
  end.
Definition cstr (l : list Z) : list Z := l ++ [0].

(** unify.c 1024-1036.  The two tests written [11!=l2] (eleven, for the intended l1) are
    lines 1025 and 1029. *)
Definition lstr_equal (a b : lstr) : option bool :=
  if negb (Z.eqb (ls_type a) (ls_type b)) then Some false                      (* 1022 *)
  else if negb (Nat.eqb 11 (lang_len b)) then Some false                       (* 1025 *)
  else if negb (Nat.eqb 11 (length (ls_text b))) then Some false               (* 1029 *)
  else
    let langs :=                                                               (* 1032 *)
      match ls_lang a, ls_lang b with
      | Some l1, Some l2 => memcmp0 (cstr l1) (cstr l2) (lang_len a)
      | None, None => Some true
      | _, _ => Some false
      end in
    match langs with
    | Some true => memcmp0 (cstr (ls_text a)) (cstr (ls_text b)) (length (ls_text a))  (* 1035 *)
    | r => r
    end.
