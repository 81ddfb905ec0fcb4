(** Model of unification and of the variable trail.
    Code: Reasoner/unify.c 62-238, 1055-1167; Reasoner/unify.h 36-41. *)
From Coq Require Import List ZArith Bool.
From Verif Require Import Terms.
Import ListNotations.
Open Scope Z_scope.

(** The variable banks and the trail.
    [bank i] is [(g->varbanks)[i]], [None] standing for UNASSIGNED (unify.h 36).
    [trail] lists the variables whose cell addresses were pushed on [g->varstack],
    newest first; [varstack[1]] is 2 + its length (unify.h 41, glb.c varstack layout). *)
Record vst := { bank : Z -> option term; trail : list Z }.

Definition empty_vst : vst := {| bank := fun _ => None; trail := [] |}.

(** SETVAR, unify.h 41. *)
Definition setvar (i : Z) (t : term) (s : vst) : vst :=
  {| bank := fun j => if Z.eqb j i then Some t else bank s j; trail := i :: trail s |}.

(** wr_varval / VARVAL_F, unify.c 1055-1075, unify.h 39: follow variable-to-variable
    bindings.  The C loop is unbounded; [None] is "out of fuel". *)
Fixpoint varval (n : nat) (b : Z -> option term) (i : Z) : option term :=
  match n with
  | O => None
  | S n' =>
      match b i with
      | None => Some (TVar i)
      | Some (TVar j) => varval n' b j
      | Some t => Some t
      end
  end.

(** "if (isvar(x)) x=VARVAL_F(x,vb)", unify.c 97-98, 230. *)
Definition deref (n : nat) (b : Z -> option term) (t : term) : option term :=
  match t with
  | TVar i => varval n b i
  | _ => Some t
  end.

(** wr_occurs_in, unify.c 200-238: does variable [x] occur in the record with fields [ys],
    looking through bindings.  [None] is "out of fuel". *)
Section OccursLoop.
  Variable occ : list term -> option bool.       (* recursive call, line 233 *)
  Variable dr : term -> option term.             (* VARVAL_F, line 230 *)
  Fixpoint occurs_loop (x : Z) (l : list term) : option bool :=
    match l with
    | [] => Some false                                          (* 237 *)
    | yi :: l' =>
        match dr yi with
        | None => None
        | Some (TVar j) => if Z.eqb x j then Some true else occurs_loop x l'   (* 231 *)
        | Some (TCst _) => occurs_loop x l'
        | Some (TRec zs) =>                                     (* 232-234 *)
            match occ zs with
            | None => None
            | Some true => Some true
            | Some false => occurs_loop x l'
            end
        end
    end.
End OccursLoop.
Fixpoint occurs_in (n : nat) (b : Z -> option term) (x : Z) (ys : list term) : option bool :=
  match n with
  | O => None
  | S n' => occurs_loop (occurs_in n' b x) (deref n' b) x ys
  end.

(** wr_equal_ptr_primitives with uniquestrflag=1, unify.c 983-1040, on the contents of the
    boxes; words that are not pointers give 0 (line 1039).  The x==y shortcut taken by all
    callers before (unify.c 95, 100, 789) is [cst_same_word] below. *)
Definition dbl_eq (a b : dblv) : bool :=      (* C "==" on doubles, line 1000 *)
  match a, b with
  | DNum x, DNum y => Z.eqb x y
  | _, _ => false
  end.
Fixpoint bytes_eq (a b : list Z) : bool :=    (* memcmp(...)==0, line 1007-1009 *)
  match a, b with
  | [], [] => true
  | x :: a', y :: b' => Z.eqb x y && bytes_eq a' b'
  | _, _ => false
  end.
Definition equal_ptr_primitives (a b : cst) : bool :=
  match a with
  | CInt x => match b with CInt y => Z.eqb x y | _ => false end        (* 991-997 *)
  | CDbl x => match b with CDbl y => dbl_eq x y | _ => false end       (* 998-1003 *)
  | CShort x => match b with CShort y => bytes_eq x y | _ => false end (* 1004-1012 *)
  | CLong x => match b with CLong y => Z.eqb x y | _ => false end      (* 1013-1018 *)
  | CImm _ => false                                                    (* 1039 *)
  end.

(** The [x==y] word comparison on constants.  For immediates and interned strings the word
    is the identity; for boxes equal words mean the same box, hence the same contents, and
    whether two boxes with equal contents share a word is not observable in the model:
    either way the contents test that follows gives the same answer, except for NaN, whose
    box identity is part of the model value. *)
Definition cst_same_word (a b : cst) : bool :=
  match a, b with
  | CImm x, CImm y => Z.eqb x y
  | CLong x, CLong y => Z.eqb x y
  | CDbl (DNaN x), CDbl (DNaN y) => Z.eqb x y
  | _, _ => false
  end.

(** Result of a unification or matching attempt: the C return value and the state left
    behind (bindings made before a failure stay on the trail); [OutOfFuel] is not a
    behaviour of the code. *)
Inductive ures := Done (r : bool) (s : vst) | OutOfFuel.

(** wr_unify_term_aux, unify.c 80-193.  The occurs-check flags [tmp_unify_do_occcheck] and
    [tmp_unify_occcheck] are set to 1 by wr_unify_term (64-65) and only ever set to 1
    (110, 128, 142), so the occurs check is always on.  The pointer shortcut [x==y] on two
    records is elided: equal pointers denote equal trees, on which the field loop also
    returns 1 without binding anything ([unify_refl] in UnifyProof.v). *)
Section UnifyLoop.
  Variable u : term -> term -> vst -> ures.
  Fixpoint unify_loop (xs ys : list term) (s : vst) : ures :=   (* 181-190 *)
    match xs, ys with
    | a :: xs', b :: ys' =>
        match u a b s with
        | Done true s' => unify_loop xs' ys' s'
        | r => r
        end
    | _, _ => Done true s
    end.
End UnifyLoop.

Fixpoint unify_aux (n : nat) (x y : term) (s : vst) : ures :=
  match n with
  | O => OutOfFuel
  | S n' =>
      match deref n' (bank s) x, deref n' (bank s) y with
      | Some x, Some y =>
          match x, y with
          | TVar i, TVar j => if Z.eqb i j then Done true s                 (* 95,100 *)
                              else Done true (setvar i y s)                 (* 107-111 *)
          | TVar i, TCst _ => Done true (setvar i y s)                      (* 107-111 *)
          | TCst _, TVar j => Done true (setvar j x s)                      (* 112-115 *)
          | TCst c, TCst d => if cst_same_word c d then Done true s         (* 100 *)
                              else Done (equal_ptr_primitives c d) s        (* 118-119 *)
          | TVar i, TRec ys =>                                              (* 122-130 *)
              match occurs_in n' (bank s) i ys with
              | None => OutOfFuel
              | Some true => Done false s
              | Some false => Done true (setvar i y s)
              end
          | TCst _, TRec _ => Done false s                                  (* 131-134 *)
          | TRec xs, TVar j =>                                              (* 136-144 *)
              match occurs_in n' (bank s) j xs with
              | None => OutOfFuel
              | Some true => Done false s
              | Some false => Done true (setvar j x s)
              end
          | TRec _, TCst _ => Done false s                                  (* 146-148 *)
          | TRec xs, TRec ys =>                                             (* 149-192 *)
              if Nat.eqb (length xs) (length ys)                            (* 157-158 *)
              then unify_loop (unify_aux n') xs ys s
              else Done false s
          end
      | _, _ => OutOfFuel
      end
  end.

(** wr_unify_term, unify.c 62-71. *)
Definition unify_term (n : nat) (x y : term) (s : vst) : ures := unify_aux n x y s.

(** wr_clear_varstack, unify.c 1100-1115: reset every cell on the trail, empty the trail. *)
Definition clear_cells (l : list Z) (b : Z -> option term) : Z -> option term :=
  fold_left (fun b i => fun j => if Z.eqb j i then None else b j) l b.
Definition clear_varstack (s : vst) : vst :=
  {| bank := clear_cells (trail s) (bank s); trail := [] |}.

(** wr_clear_varstack_topslice, unify.c 1152-1167, with y-2 = [keep] the number of trail
    entries kept.  The code sets vs[1]=y even when the trail is shorter; the model keeps
    [keep] entries only when they exist (callers pass an earlier vs[1]). *)
Definition clear_topslice (keep : nat) (s : vst) : vst :=
  let drop := (length (trail s) - keep)%nat in
  {| bank := clear_cells (firstn drop (trail s)) (bank s);
     trail := skipn drop (trail s) |}.
