(** The ordering of the two sides of an equation.
    Code: Reasoner/strat.c 911-1039 (wr_order_eqterms), 1041-1073 (weight of a constant, built
    without KB_WEIGHTS_ORDER: always 10), 1076-1116 (counted variable lists), 1135-1167
    (occurrence), 1170-1213 (weight), 1222-1282 (subset, built with SUBLISTS_FIXED), 1295-1375
    (lexicographic comparison, built with NORMAL_CONSTANT_ORDER), 1461-1465 (constants);
    glb.c 840-843 (size of the lists).
    Simplifications:
    - terms are trees as in Terms; [word c] is the encoded word of a constant, any function;
      the pointer comparisons x==y of records (1311, 1315, 1369) only skip work, since a tree is
      lexicographically equal to itself;
    - weights are computed in [int]; the model's are unbounded, so terms with more than 2^31/10
      leaves are outside it;
    - variables are their numbers: the encoding 16*i+7 keeps the order, and -1 is below all;
    - a NULL variable bank is a bank without bindings. *)
From Coq Require Import List ZArith Bool.
From Verif Require Import Terms UnifyModel.
Import ListNotations.
Open Scope Z_scope.

(** Counted variable lists, 1082-1091: the pairs in the order they were stored, and the largest
    variable stored *)
Record vlist := { items : list (Z * Z); maxv : Z }.
(** wr_clear_countedvarlist 1076-1080 *)
Definition empty_vl : vlist := {| items := []; maxv := -1 |}.
(** 1099-1104: the variable is already in the list *)
Fixpoint bump (x : Z) (l : list (Z * Z)) : option (list (Z * Z)) :=
  match l with
  | [] => None
  | (v, c) :: l => if v =? x then Some ((v, c + 1) :: l)
                   else match bump x l with Some l => Some ((v, c) :: l) | None => None end
  end.
(** glb.c 840: 4 + 2 * NROF_VARSINBANK words, so room for 1000 variables *)
Definition capacity : nat := Z.to_nat 1000.
(** wr_record_varocc 1093-1116; a variable for which there is no room is not stored (1108-1111) *)
Definition store_new (x : Z) (l : vlist) : vlist :=
  if Nat.leb capacity (length (items l)) then l
  else {| items := items l ++ [(x, 1)]; maxv := if maxv l <? x then x else maxv l |}.
Definition record_varocc (x : Z) (l : vlist) : vlist :=
  if x <=? maxv l then
    match bump x (items l) with
    | Some l' => {| items := l'; maxv := maxv l |}
    | None => store_new x l
    end
  else store_new x l.
Fixpoint lookup (x : Z) (l : list (Z * Z)) : option Z :=
  match l with
  | [] => None
  | (v, c) :: l => if v =? x then Some c else lookup x l
  end.
(** wr_countedvarlist_is_subset 1222-1282, neither list NULL *)
Definition subset (xs ys : vlist) : bool :=
  match items xs, items ys with
  | [], _ => true
  | _, [] => false
  | _, _ =>
      if Nat.ltb (length (items ys)) (length (items xs)) then false
      else if maxv ys <? maxv xs then false
      else forallb (fun p => match lookup (fst p) (items ys) with
                             | Some c => snd p <=? c
                             | None => false
                             end) (items xs)
  end.

Section Ord.
Variable word : cst -> Z.
Definition eq_var_weight : Z := 10.     (* EQ_ORDER_VAR_WEIGHT, 53 *)
Definition const_weight : Z := 10.      (* 1041-1073 *)

(** wr_order_eqterms_weight_vars 1170-1213: the weight, and the list with the variables added *)
Section WeightLoop.
  Variable w : term -> vlist -> option (Z * vlist).
  Fixpoint weight_loop (fs : list term) (acc : Z) (l : vlist) : option (Z * vlist) :=
    match fs with
    | [] => Some (acc, l)
    | f :: fs => match w f l with
                 | None => None
                 | Some (x, l) => weight_loop fs (acc + x) l
                 end
    end.
End WeightLoop.
Fixpoint weight_vars (n : nat) (b : Z -> option term) (x : term) (l : vlist) : option (Z * vlist) :=
  match n with
  | O => None
  | S n =>
      match deref n b x with
      | None => None
      | Some (TVar i) => Some (eq_var_weight, record_varocc i l)
      | Some (TCst _) => Some (const_weight, l)
      | Some (TRec fs) => weight_loop (weight_vars n b) fs 0 l
      end
  end.

(** wr_order_eqterms_const_lex_smaller 1461-1465 *)
Definition const_smaller (c d : cst) : bool := word d <? word c.
(** wr_order_eqterms_lex_order 1295-1375: 0 equal, 1 x smaller, 2 y smaller, 3 not comparable *)
Section LexLoop.
  Variable lex : term -> term -> option Z.
  Fixpoint lex_loop (xs ys : list term) : option Z :=
    match xs, ys with
    | x :: xs, y :: ys => match lex x y with
                          | None => None
                          | Some r => if r =? 0 then lex_loop xs ys else Some r
                          end
    | _, _ => Some 0
    end.
End LexLoop.
Fixpoint lex_order (n : nat) (b : Z -> option term) (x y : term) : option Z :=
  match n with
  | O => None
  | S n =>
      match deref n b x, deref n b y with
      | Some x, Some y =>
          match x, y with
          | TVar i, TVar j => Some (if i =? j then 0 else 3)
          | TVar _, _ => Some 3
          | _, TVar _ => Some 3
          | TCst c, TCst d => Some (if word c =? word d then 0 else if const_smaller c d then 1 else 2)
          | TCst _, TRec _ => Some 1
          | TRec _, TCst _ => Some 2
          | TRec fs, TRec gs =>
              if Nat.ltb (length fs) (length gs) then Some 1
              else if Nat.ltb (length gs) (length fs) then Some 2
              else lex_loop (lex_order n b) fs gs
          end
      | _, _ => None
      end
  end.

(** wr_order_eqterms 911-1039: 1 a bigger than b, 2 b bigger than a, 3 neither;
    wr_order_eqterms_occurs_in 1135-1167 is the same walk as wr_occurs_in (unify.c 200-238) *)
Definition order_eqterms (n : nat) (b : Z -> option term) (x y : term) : option Z :=
  match deref n b x, deref n b y with
  | Some x, Some y =>
      match x, y with
      | TVar _, TVar _ => Some 3
      | TVar i, TRec gs => match occurs_in n b i gs with None => None | Some o => Some (if o then 2 else 3) end
      | TVar _, TCst _ => Some 3
      | TRec fs, TVar j => match occurs_in n b j fs with None => None | Some o => Some (if o then 1 else 3) end
      | TCst _, TVar _ => Some 3
      | TCst _, TRec _ => Some 2
      | TCst c, TCst d => Some (if const_smaller c d then 2 else if const_smaller d c then 1 else 3)
      | TRec _, TCst _ => Some 1
      | TRec fs, TRec gs =>
          match weight_vars n b (TRec fs) empty_vl, weight_vars n b (TRec gs) empty_vl with
          | Some (xw, xl), Some (yw, yl) =>
              if (yw <? xw) && subset yl xl then Some 1
              else if (xw <? yw) && subset xl yl then Some 2
              else if xw =? yw then
                match lex_order n b (TRec fs) (TRec gs) with
                | None => None
                | Some lo => if (lo =? 2) && subset yl xl then Some 1
                             else if (lo =? 1) && subset xl yl then Some 2
                             else Some 3
                end
              else Some 3
          | _, _ => None
          end
      end
  | _, _ => None
  end.
End Ord.
