(** Model of term equality and of one-sided matching.
    Code: Reasoner/unify.c 253-345 (matching), 348-420 (variant test), 451-526 (unique
    variable matching), 777-847, 937-980 (equality); Reasoner/unify.h 46-51 (macro).
    uniquestrflag is 1 throughout. *)
From Coq Require Import List ZArith Bool.
From Verif Require Import Terms UnifyModel.
Import ListNotations.
Open Scope Z_scope.

(** Stray header reads.  In several places the code takes the record header of a word that
    is a constant, not a record pointer (unify.c 957-960 via the macro when x is a record
    and y a long string; unify.c 310-314 when x is a constant and y a record).  What that
    read does is undefined; the model parameter [sb] ("stray benign") says, per constant,
    whether the read survives and yields a length different from the length of the other
    record, in which case the code answers 0.  Otherwise the outcome is [Stray]. *)
Definition stray_env := cst -> bool.

Inductive eres := EYes | ENo | EStray.

Definition ebool (b : bool) : eres := if b then EYes else ENo.

(** Low two tag bits of pointer words, Db/dbdata.h 307-329 and NONPTRBITS 426. *)
Definition low2 (c : cst) : Z :=
  match c with CImm _ => 3 | CInt _ => 1 | CDbl _ => 2 | CShort _ => 2 | CLong _ => 0 end.
(** isptr on constants, Db/dbdata.h 431. *)
Definition cst_isptr (c : cst) : bool := match c with CImm _ => false | _ => true end.

(** Two constants: unify.h 47-51 then unify.c 948-953. *)
Definition equal_cst (c d : cst) : bool :=
  if cst_same_word c d then true                                   (* x==y *)
  else match c with
       | CLong _ | CImm _ => false                                 (* eqencx tests *)
       | _ => if negb (cst_isptr d) then false
              else if negb (Z.eqb (low2 c) (low2 d)) then false
              else equal_ptr_primitives c d
       end.

Section Equal.
  Variable sb : stray_env.

  Section Loop.
    Variable eq : term -> term -> eres.
    Fixpoint equal_loop (xs ys : list term) : eres :=   (* unify.c 973-978, 840-845 *)
      match xs, ys with
      | a :: xs', b :: ys' =>
          match eq a b with EYes => equal_loop xs' ys' | r => r end
      | _, _ => EYes
      end.
  End Loop.

  (** WR_EQUAL_TERM (unify.h 46-51) with wr_equal_term_macroaux (unify.c 937-980).
      Pointer identity of records is elided (equal trees also give 1). *)
  Fixpoint equal_macro (x y : term) {struct x} : eres :=
    match x, y with
    | TVar i, TVar j => ebool (Z.eqb i j)
    | TVar _, _ => ENo                                  (* eqencx==NORMALPTRMASK *)
    | TCst c, TCst d => ebool (equal_cst c d)
    | TCst _, TVar _ => ENo
    | TCst _, TRec _ => ENo            (* long string: eqencx test; others: low bits differ *)
    | TRec _, TVar _ => ENo                             (* !isptr(y) *)
    | TRec xs, TCst d =>
        match d with
        | CLong _ => if sb d then ENo else EStray       (* unify.c 957-962: header of y read *)
        | _ => ENo                                      (* not a pointer, or low bits differ *)
        end
    | TRec xs, TRec ys =>
        if Nat.eqb (length xs) (length ys)              (* 961-962 *)
        then equal_loop equal_macro xs ys
        else ENo
    end.

  (** wr_equal_term, unify.c 777-847: as the macro, but tests isdatarec(y) (806). *)
  Definition equal_term (x y : term) : eres :=
    match x, y with
    | TVar i, TVar j => ebool (Z.eqb i j)
    | TCst c, TCst d => ebool (equal_cst c d)
    | TRec xs, TRec ys =>
        if Nat.eqb (length xs) (length ys) then equal_loop equal_macro xs ys else ENo
    | _, _ => ENo
    end.

  (** ** Matching *)
  Inductive mres := MDone (r : bool) (s : vst) | MStray.

  Definition of_eres (e : eres) (s : vst) : mres :=
    match e with EYes => MDone true s | ENo => MDone false s | EStray => MStray end.

  Section MLoop.
    Variable m : term -> term -> vst -> mres.
    Fixpoint match_loop (xs ys : list term) (s : vst) : mres :=   (* 338-343 *)
      match xs, ys with
      | a :: xs', b :: ys' =>
          match m a b s with
          | MDone true s' => match_loop xs' ys' s'
          | r => r
          end
      | _, _ => MDone true s
      end.
  End MLoop.

  (** wr_match_term_aux, unify.c 274-345. *)
  Fixpoint match_aux (x y : term) (s : vst) {struct x} : mres :=
    match x with
    | TVar i =>                                         (* 291-302 *)
        match bank s i with
        | None => MDone true (setvar i y s)
        | Some v => of_eres (equal_macro v y) s
        end
    | TCst c =>                                         (* 304-306 *)
        match equal_macro x y with
        | EYes => MDone true s
        | EStray => MStray
        | ENo =>
            match y with
            | TRec _ => if sb c then MDone false s else MStray   (* 309-316: header of x read *)
            | _ => MDone false s                        (* 307 *)
            end
        end
    | TRec xs =>
        match y with
        | TRec ys =>
            if Nat.eqb (length xs) (length ys)          (* 315-316 *)
            then match_loop match_aux xs ys s
            else MDone false s
        | _ => MDone false s                            (* 307 *)
        end
    end.

  (** wr_match_term, unify.c 253-260. *)
  Definition match_term (x y : term) (s : vst) : mres := match_aux x y s.
End Equal.
