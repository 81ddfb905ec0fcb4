(** Removal of literals that are instances up to variables occurring only once.
    Code: Reasoner/derive.c 1337-1525, Reasoner/unify.c 451-526. *)
From Coq Require Import List ZArith Bool.
From Verif Require Import Terms UnifyModel MatchModel MetaModel.
Import ListNotations.
Open Scope Z_scope.

(** The value of a variable cell: UNASSIGNED, NULL, or the variable itself. *)
Inductive umark := Unseen | Once | Again.

(** wr_mark_repeated_vars, derive.c 1481-1525. *)
Definition mark_var (i : Z) (m : Z -> umark) : Z -> umark :=
  fun j => if Z.eqb j i then match m i with Unseen => Once | _ => Again end else m j.
Fixpoint mark_vars (t : term) (m : Z -> umark) : Z -> umark :=
  match t with
  | TVar i => mark_var i m
  | TCst _ => m
  | TRec fs => fold_left (fun m f => mark_vars f m) fs m
  end.
Definition mark_all (r : list mlit) : Z -> umark :=
  fold_left (fun m (x : mlit) => mark_vars (snd x) m) r (fun _ => Unseen).

Definition MAX_BLOCKED_LITNR : nat := 40.

Inductive nres := N0 | N1 | N2 | NStray.

Section Dup.
  Variable sb : stray_env.
  Variable m : Z -> umark.

  Section NLoop.
    Variable f : term -> term -> nres.
    Fixpoint nomatch_loop (xs ys : list term) : nres :=       (* unify.c 518-524 *)
      match xs, ys with
      | a :: xs', b :: ys' => match f a b with N0 => nomatch_loop xs' ys' | r => r end
      | _, _ => N0
      end.
  End NLoop.

  Definition of_equal (e : eres) (no : nres) : nres :=
    match e with EYes => N0 | ENo => no | EStray => NStray end.

  (** wr_nomatch_term_uniquevars, unify.c 451-526. *)
  Fixpoint nomatch (x y : term) : nres :=
    match x with
    | TVar i =>
        match m i with
        | Once => N0                                            (* 477 *)
        | _ => of_equal (equal_macro sb x y) N1                 (* 478-479 *)
        end
    | TCst c =>
        match equal_macro sb x y with                           (* 483 *)
        | EYes => N0
        | EStray => NStray
        | ENo =>
            match y with
            | TVar _ => N1                                      (* 485 *)
            | TCst _ => N2                                      (* 487 *)
            | TRec _ => if sb c then N2 else NStray             (* 491-496: header of x read *)
            end
        end
    | TRec xs =>
        match y with
        | TVar _ => N1
        | TCst _ => N2
        | TRec ys => if Nat.eqb (length xs) (length ys) then nomatch_loop nomatch xs ys else N2
        end
    end.

  Variable lits : list mlit.

  Definition block (k : nat) (bl : nat -> bool) : nat -> bool := fun j => if Nat.eqb j k then true else bl j.

  (** The inner loop, derive.c 1404-1430; [None] is a stray read. *)
  Fixpoint dup_inner (x : nat) (xl : mlit) (ys : list nat) (bl : nat -> bool) : option (nat -> bool) :=
    match ys with
    | [] => Some bl
    | y :: ys' =>
        if bl y then dup_inner x xl ys' bl                                       (* 1405 *)
        else
          match nth_error lits y with
          | None => Some bl                                                       (* y < maxpos *)
          | Some yl =>
              if Bool.eqb (meta_is_neg (fst xl)) (meta_is_neg (fst yl)) then     (* 1407 *)
                match nomatch (snd xl) (snd yl) with
                | N0 => dup_inner x xl ys' (block x bl)                           (* 1413-1416 *)
                | N1 =>
                    match nomatch (snd yl) (snd xl) with
                    | N0 => dup_inner x xl ys' (block y bl)                       (* 1421-1425 *)
                    | NStray => None
                    | _ => dup_inner x xl ys' bl
                    end
                | N2 => dup_inner x xl ys' bl
                | NStray => None
                end
              else dup_inner x xl ys' bl
          end
    end.

  (** The outer loop, derive.c 1399-1431. *)
  Fixpoint dup_outer (lim : nat) (xs : list nat) (bl : nat -> bool) : option (nat -> bool) :=
    match xs with
    | [] => Some bl
    | x :: xs' =>
        if bl x then dup_outer lim xs' bl                                         (* 1400 *)
        else
          match nth_error lits x with
          | None => Some bl
          | Some xl =>
              match dup_inner x xl (seq (S x) (lim - S x)) bl with
              | Some bl' => dup_outer lim xs' bl'
              | None => None
              end
          end
    end.

  (** The compaction, derive.c 1447-1463. *)
  Fixpoint keep_unblocked (k : nat) (r : list mlit) (bl : nat -> bool) : list mlit :=
    match r with
    | [] => []
    | x :: r' => if (k <? MAX_BLOCKED_LITNR)%nat && bl k then keep_unblocked (S k) r' bl
                 else x :: keep_unblocked (S k) r' bl
    end.
End Dup.

(** wr_find_strong_duplicates, derive.c 1339-1470.  The early exits (1362-1365, 1387-1390)
    apply when no variable is marked as occurring once; they are taken by [anyonce]. *)
Definition any_once (m : Z -> umark) (r : list mlit) : bool :=
  existsb (fun x : mlit => existsb (fun i => match m i with Once => true | _ => false end) (tvars (snd x))) r.
Definition find_duplicates (sb : stray_env) (r : list mlit) : option (list mlit) :=
  let m := mark_all r in
  if any_once m r then
    let lim := Nat.min (length r) MAX_BLOCKED_LITNR in
    match dup_outer sb m r lim (seq 0 lim) (fun _ => false) with
    | Some bl => Some (keep_unblocked 0 r bl)
    | None => None
    end
  else Some r.
