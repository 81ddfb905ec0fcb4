(** Terms and clauses of the reasoner as trees: what an encoded word denotes once
    pointers are followed.  Specification-level vocabulary shared by all models.

    Code modelled: Db/dbdata.h 307-450 (value tags), Reasoner/clterm.h 41-107 and
    190-200 (record layout), Reasoner/glb.c 155-161 (unify configuration:
    [unify_samelen]=1, [unify_maxuseterms]=0, [unify_firstuseterm]=1, [unify_funpos]=1,
    [unify_footerlen]=0).

    Simplifications:
    - a record pointer is replaced by the list of its fields from position
      [unify_firstuseterm] on (function/predicate symbol first, then arguments); the
      record header and the unused term-meta field are dropped;
    - a pointer to a boxed constant is replaced by the box contents.  Two boxes with the
      same contents are the same model constant; the pointer-identity shortcuts [x==y] of
      the code then only ever fire on equal trees (the exception, NaN doubles, is kept
      apart by [DNaN], which carries the box identity). *)
From Coq Require Import List ZArith Bool Lia.
Import ListNotations.
Open Scope Z_scope.

(** A boxed double, as far as C's [==] on doubles can tell: numbers compare by value
    (so 0.0 and -0.0 are the same [DNum]), a NaN is equal to nothing but its own box. *)
Inductive dblv := DNum (v : Z) | DNaN (box : Z).

(** Non-variable, non-record values.  Db/dbdata.h 307-329. *)
Inductive cst :=
| CImm (w : Z)        (** immediate word: small int, char, date, time, fixpoint, anonymous constant *)
| CInt (z : Z)        (** boxed integer (pointer bits 01) *)
| CDbl (d : dblv)     (** boxed double (pointer bits 010) *)
| CShort (bs : list Z)(** boxed 32-byte string (pointer bits 110) *)
| CLong (o : Z).      (** long string, URI, xml literal (pointer bits 100); interned: identity is the offset *)

Inductive term :=
| TVar (i : Z)            (** immediate variable, tag bits 0111, [decode_var] = i *)
| TCst (c : cst)
| TRec (fs : list term).  (** data record, tag bits 000 *)

(** Nested induction principle. *)
Section TermInd.
  Variable P : term -> Prop.
  Hypothesis HV : forall i, P (TVar i).
  Hypothesis HC : forall c, P (TCst c).
  Hypothesis HR : forall fs, Forall P fs -> P (TRec fs).
  Fixpoint term_ind' (t : term) : P t :=
    match t with
    | TVar i => HV i
    | TCst c => HC c
    | TRec fs => HR fs ((fix go (l : list term) : Forall P l :=
                           match l with
                           | [] => Forall_nil P
                           | a :: l' => Forall_cons a (term_ind' a) (go l')
                           end) fs)
    end.
End TermInd.

Definition dblv_eq_dec (a b : dblv) : {a = b} + {a <> b}.
Proof. decide equality; apply Z.eq_dec. Defined.
Definition cst_eq_dec (a b : cst) : {a = b} + {a <> b}.
Proof.
  decide equality; try apply Z.eq_dec.
  - apply dblv_eq_dec.
  - apply list_eq_dec, Z.eq_dec.
Defined.
Fixpoint term_eq_dec (a b : term) {struct a} : {a = b} + {a <> b}.
Proof.
  destruct a as [i|c|fs], b as [j|d|gs]; try (right; discriminate).
  - destruct (Z.eq_dec i j); [left|right]; congruence.
  - destruct (cst_eq_dec c d); [left|right]; congruence.
  - assert (H : {fs = gs} + {fs <> gs}).
    { revert gs; induction fs as [|f fs IH]; intros [|g gs]; try (right; discriminate).
      - left; reflexivity.
      - destruct (term_eq_dec f g) as [->|n]; [|right; congruence].
        destruct (IH gs) as [->|n]; [left; reflexivity|right; congruence]. }
    destruct H; [left|right]; congruence.
Defined.

(** ** Substitutions (specification) *)
Definition subst := Z -> term.

Fixpoint app (s : subst) (t : term) : term :=
  match t with
  | TVar i => s i
  | TCst c => TCst c
  | TRec fs => TRec (map (app s) fs)
  end.

Definition ids : subst := TVar.

Fixpoint tvars (t : term) : list Z :=
  match t with
  | TVar i => [i]
  | TCst _ => []
  | TRec fs => flat_map tvars fs
  end.

Definition ground (t : term) : Prop := tvars t = [].

(** Number of symbols of a term. *)
Fixpoint tsize (t : term) : nat :=
  match t with
  | TVar _ => 1
  | TCst _ => 1
  | TRec fs => S (list_sum (map tsize fs))
  end%nat.

Definition Zmem (i : Z) (l : list Z) : bool := existsb (Z.eqb i) l.
