(** What a word stands for, and the order of such contents. *)
From Coq Require Import List ZArith Bool.
From Verif Require Import Word64 AllocModel EncModel EncSpec CmpModel.
Import ListNotations.
Open Scope Z_scope.

(** The bit pattern of a double, not a NaN, read as sign and magnitude: IEEE 754 orders doubles
    like these integers, the two zeros being the same. *)
Definition is_nan (b : Z) : bool := 9218868437227405312 <? b mod 2 ^ 63.
Definition dbl_rank (b : Z) : Z := if b <? 0 then - (b mod 2 ^ 63) else b mod 2 ^ 63.

(** Contents: type code, prefix or xsd type (empty if there is none) and the value; or the
    contents of the fields of a record. *)
Inductive content := KScalar (ty : Z) (prefix value : list Z) | KRec (fields : list content).

(** Alphabetic order. *)
Fixpoint alpha (a b : list Z) : comparison :=
  match a, b with
  | [], [] => Eq
  | [], _ => Lt
  | _, [] => Gt
  | x :: a, y :: b => match x ?= y with Eq => alpha a b | c => c end
  end.
Definition then_ (c c' : comparison) : comparison := match c with Eq => c' | _ => c end.
(** Types first; records with fewer fields before those with more, then field by field. *)
Fixpoint order (a b : content) : comparison :=
  match a, b with
  | KScalar t p v, KScalar t' p' v' => then_ (t ?= t') (then_ (alpha p p') (alpha v v'))
  | KScalar t _ _, KRec _ => if t <=? 2 then Lt else Gt
  | KRec _, KScalar t _ _ => if t <=? 2 then Gt else Lt
  | KRec fs, KRec gs =>
      then_ (Nat.compare (length fs) (length gs))
        ((fix fields (fs gs : list content) : comparison :=
            match fs, gs with
            | f :: fs, g :: gs => then_ (order f g) (fields fs gs)
            | _, _ => Eq
            end) fs gs)
  end.

Section Contents.
  Variable d : db.
  Variable text : Z -> list Z.
  Variable extra : Z -> option (list Z).
  Variable blob : Z -> list Z.

  Definition prefix_of (w : Z) : list Z := match extra w with Some e => e | None => [] end.
  Definition scalar (v : value) : option (list Z * list Z) :=
    let w := encode v in
    match v with
    | VNull => Some ([], [])
    | VInt i => Some ([], [i])
    | VBoxedInt o => Some ([], [mem d o])
    | VDouble o => if is_nan (mem d o) then None else Some ([], [dbl_rank (mem d o)])
    | VRecord _ => None
    | VShort _ => Some ([], text w)
    | VLong _ ty => if ty =? 5 then Some ([], text w) else if ty =? 8 then Some ([], blob w) else Some (prefix_of w, text w)
    | VChar c => Some ([], if c =? 0 then [] else [c mod 256])
    | VFix k => Some ([], [k])
    | VDate i | VTime i | VVar i => Some ([], [i])
    | VAnon _ => Some ([], [w])
    end.
  (** [content_of n w k]: looking [n] records deep, [w] stands for [k]; records below that
      depth stand for their address. *)
  Inductive content_of : nat -> Z -> content -> Prop :=
  | co_scalar n v p x : in_range d v -> scalar v = Some (p, x) -> content_of n (encode v) (KScalar (type_code v) p x)
  | co_address o : in_range d (VRecord o) -> content_of 0 (encode (VRecord o)) (KScalar 2 [] [o])
  | co_record n o len tag ks : in_range d (VRecord o) -> mem d o = 8 * (3 + Z.of_nat len) + tag -> 0 <= tag < 4 ->
      Forall2 (content_of n) (map (fun i => mem d (o + 8 * (3 + Z.of_nat i))) (seq 0 len)) ks ->
      content_of (S n) (encode (VRecord o)) (KRec ks).
End Contents.

Definition code_of (c : comparison) : Z := match c with Eq => 0 | Gt => 1 | Lt => -1 end.
