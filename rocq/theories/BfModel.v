(** Built-in functions and predicates on lists, strings and typed constants, and built-in equality.
    Code: Reasoner/build.c 978-1060 (which function symbols are computed), 1063-1127 (dispatch),
    1162-1259 (equality), 1442-1486 (strings), 1488-1729 (tests of types, length of a string),
    1731-1825 (lists); Reasoner/build.h 68-115 (operation codes).
    Terms are those of Terms.v: the fields of a record from the function symbol on, so that a
    record of [n] words has [n - 1] model fields (unify_firstuseterm = unify_funpos = 1,
    Reasoner/glb.c 155-161).  The evaluation of arithmetic (1261-1440 and the number cases of
    1488-1641) is in ArithModel; here it is the outcome [VArith]. *)
From Coq Require Import ZArith Bool Ascii String List.
From Verif Require Import Terms UnifyModel MatchModel EncModel.
Import ListNotations.
Open Scope string_scope.
Open Scope Z_scope.

(** What a long string holds (Db/dbdata.c 1406-1452, 2200-2300): a URI with its prefix and name,
    or another kind of string.  Names are the bytes before the final zero. *)
Inductive longv := LUri (pre : option string) (name : string) | LOther.

(** wg_get_encoded_type, Db/dbdata.c 1406-1452, as far as the code here distinguishes types *)
Inductive ctype := YInt | YDouble | YUri | YAnon | YVar | YRec | YOther.

(** Outcomes: true, false, the term itself (encode_record(db,tptr)), another term, a new
    integer, an arithmetic operation, a read outside the record or of a header that is none. *)
Inductive vres := VTrue | VFalse | VLeft | VTerm (t : term) | VInt (z : Z) | VArith | VStray.

(** build.h 68-115; the arithmetic operations are one *)
Inductive op :=
  | OEqual | OArith
  | OIsInt | OIsReal | OIsNumber | OIsList | OIsMap | OIsAtom | OIsUnique
  | OStrlen | OIsSubstr | OFirst | ORest | OIsSubstrat.

Section Builtin.
  Variable sym : Z -> longv.       (** the contents of the long strings *)
  Variable sb : stray_env.

  Definition imm_type (w : Z) : ctype :=
    if issmallint w then YInt else if Z.land w 255 =? 95 then YAnon else YOther.
  Definition ctype_of (c : cst) : ctype :=
    match c with
    | CImm w => imm_type w
    | CInt _ => YInt
    | CDbl _ => YDouble
    | CShort _ => YOther
    | CLong o => match sym o with LUri _ _ => YUri | LOther => YOther end
    end.
  Definition type_of (t : term) : ctype :=
    match t with TVar _ => YVar | TRec _ => YRec | TCst c => ctype_of c end.
  (** wg_decode_uri and wg_decode_uri_prefix of a word of URI type *)
  Definition uri_of (t : term) : option (option string * string) :=
    match t with
    | TCst (CLong o) => match sym o with LUri p n => Some (p, n) | LOther => None end
    | _ => None
    end.
  (** wg_decode_int of a word of integer type *)
  Definition int_of (t : term) : Z :=
    match t with
    | TCst (CInt z) => z
    | TCst (CImm w) => decode_smallint w
    | _ => 0
    end.
  (** wr_uri_is_unique 1731-1740 *)
  Definition is_unique (t : term) : bool :=
    match uri_of t with Some (Some p, _) => String.eqb p "#" | _ => false end.
  (** wr_uri_is_list 1742-1752 *)
  Definition uri_is_list (t : term) : bool :=
    match uri_of t with Some (_, n) => String.eqb n "$nil" | None => false end.
  (** 1763-1776, the test of the function symbol *)
  Definition is_list_sym (h : term) : bool :=
    match uri_of h with Some (_, n) => String.eqb n "$list" | None => false end.
  (** wr_record_is_list 1755-1776 *)
  Definition is_list (t : term) : bool :=
    match t with
    | TRec [h; _; _] => is_list_sym h
    | _ => false
    end.

  Definition is_num (y : ctype) : bool := match y with YInt | YDouble => true | _ => false end.
  Definition is_uri (y : ctype) : bool := match y with YUri => true | _ => false end.
  Definition is_rec (y : ctype) : bool := match y with YRec => true | _ => false end.
  Definition is_anon (y : ctype) : bool := match y with YAnon => true | _ => false end.

  (** wr_compute_fun_equal_terms 1176-1259.  [VLeft] stands for encode_record(db,tptr). *)
  Fixpoint equal_terms (a b : term) {struct a} : vres :=
    match equal_term sb a b with
    | EYes => VTrue                                                             (* 1187 *)
    | EStray => VStray
    | ENo =>
        let ya := type_of a in
        let yb := type_of b in
        let ua := uri_is_list a || is_unique a in
        let ub := uri_is_list b || is_unique b in
        match a, b with
        | TVar _, _ | _, TVar _ => VLeft                                        (* 1191-1192 *)
        | _, _ =>
            if is_num yb && ((is_rec ya && is_list a) || (is_uri ya && ua)) then VFalse      (* 1199-1204 *)
            else if is_num ya && ((is_rec yb && is_list b) || (is_uri yb && ub)) then VFalse (* 1205-1210 *)
            else if is_rec ya && is_uri yb && (ub && is_list a) then VFalse                  (* 1211-1215 *)
            else if is_rec yb && is_uri ya && (ua && is_list b) then VFalse                  (* 1216-1220 *)
            else if is_rec ya && is_list a && is_rec yb && is_list b then                    (* 1221-1234 *)
              match a, b with
              | TRec [_; a1; a2], TRec [_; b1; b2] =>
                  match equal_terms a1 b1 with
                  | VTrue => equal_terms a2 b2
                  | r => r
                  end
              | _, _ => VStray                                                  (* not reached *)
              end
            else if is_uri ya && is_uri yb && ua && ub then VFalse                           (* 1235-1239 *)
            else if is_uri ya || is_anon ya || is_uri yb || is_anon yb then VLeft            (* 1240-1242 *)
            else if is_rec ya || is_rec yb then VLeft                                        (* 1243-1245 *)
            else VFalse                                                                      (* 1246-1248 *)
        end
    end.

  (** wr_compute_fun_equal 1162-1174; arguments after the first two are not looked at *)
  Definition fun_equal (args : list term) : vres :=
    match args with
    | a :: b :: _ => equal_terms a b
    | _ => VLeft
    end.

  (** ** Strings: wr_compute_fun_str 1442-1486 *)
  (** strstr(b,a) != NULL *)
  Fixpoint strstr (a b : string) : bool :=
    String.prefix a b || match b with EmptyString => false | String _ b' => strstr a b' end.
  (** The byte at an offset of a string, its final zero included *)
  Definition byte_at (s : string) (n : Z) : ascii :=
    match String.get (Z.to_nat n) s with Some c => c | None => zero end.
  Definition slen (s : string) : Z := Z.of_nat (String.length s).

  Definition fun_str (o : op) (args : list term) : vres :=
    match args with
    | a :: b :: rest =>
        match uri_of a, uri_of b with
        | Some (_, sa), Some (_, sb) =>
            match o with
            | OIsSubstr => if strstr sa sb then VTrue else VFalse               (* 1463-1467 *)
            | OIsSubstrat =>
                match rest with
                | [] => VStray                                                  (* 1469: no third argument *)
                | c :: _ =>
                    match type_of c with
                    | YInt =>
                        let ci := int_of c in
                        if ci <? 0 then VLeft
                        else if slen sb <? ci then VLeft                        (* 1474-1475 *)
                        else if slen sb <? slen sa + ci then VLeft              (* 1476-1477 *)
                        else if Ascii.eqb (byte_at sb ci) (byte_at sa 0) then VTrue   (* 1478: memcmp of 1 byte *)
                        else VFalse
                    | _ => VLeft
                    end
                end
            | _ => VLeft
            end
        | _, _ => VLeft
        end
    | _ => VLeft
    end.

  (** ** Lists: wr_compute_fun_list 1778-1825; [code] 1: the first element, 0: the rest, 2: test *)
  Definition fun_list (args : list term) (code : nat) : vres :=
    match args with
    | [TRec [h; x; y]] =>
        if is_list_sym h then
          match code with
          | 1%nat => VTerm x
          | 0%nat => VTerm y
          | 2%nat => VTrue
          | _ => VLeft
          end
        else VLeft
    | _ => VLeft
    end.

  (** ** wr_compute_fun_arith1 1488-1729: the tests of types and the length of strings *)
  Definition fun_arith1 (o : op) (args : list term) : vres :=
    match args with
    | a :: _ =>
        match type_of a with
        | YInt =>                                                               (* 1508-1563 *)
            match o with
            | OIsInt => VTrue | OIsReal => VFalse | OIsNumber => VTrue | OIsList => VFalse
            | OIsMap => VFalse | OIsAtom => VTrue | OIsUnique => VFalse
            | OArith => VArith
            | _ => VLeft
            end
        | YDouble =>                                                            (* 1564-1638 *)
            match o with
            | OIsInt => VFalse | OIsReal => VTrue | OIsNumber => VTrue | OIsList => VFalse
            | OIsMap => VFalse | OIsAtom => VTrue | OIsUnique => VFalse
            | OArith => VArith
            | _ => VLeft
            end
        | YRec =>                                                               (* 1639-1658 *)
            match o with
            | OIsAtom | OIsUnique => match fun_list args 2 with VTrue => VFalse | _ => VLeft end
            | OIsList => fun_list args 2
            | OFirst => fun_list args 1
            | ORest => fun_list args 0
            | _ => VLeft
            end
        | YUri =>                                                               (* 1659-1709 *)
            if is_unique a then
              match o with
              | OIsInt | OIsReal | OIsNumber | OIsList | OIsMap => VFalse
              | OIsAtom | OIsUnique => VTrue
              | OStrlen => match uri_of a with Some (_, s) => VInt (slen s) | None => VLeft end
              | _ => VLeft
              end
            else
              match o with
              | OIsAtom => VTrue
              | OIsList => if uri_is_list a then VTrue else VLeft
              | _ => VLeft
              end
        | _ => VLeft
        end
    | [] => VLeft
    end.

  (** wr_compute_from_termptr 1063-1127: the tests of lists, maps, atoms and distinct symbols are
      evaluated with the operation $first (1112-1118) *)
  Definition compute (o : op) (args : list term) : vres :=
    match o with
    | OEqual => fun_equal args
    | OArith => VArith
    | OIsInt | OIsReal | OIsNumber => fun_arith1 o args
    | OIsList | OIsMap | OIsAtom | OIsUnique | OFirst => fun_list args 1
    | ORest => fun_list args 0
    | OStrlen => fun_arith1 o args
    | OIsSubstr | OIsSubstrat => fun_str o args
    end.

  (** 1007-1042: the names starting with a dollar sign, in the order of the tests.  Names with
      the second character a (1002) or, in a further test, i (1004-1014) are left before. *)
  Definition dollar_ops : list (string * op) :=
    [("$sum", OArith); ("$product", OArith); ("$difference", OArith); ("$quotient", OArith);
     ("$less", OArith); ("$lesseq", OArith); ("$greatereq", OArith); ("$greater", OArith);
     ("$to_int", OArith); ("$to_real", OArith); ("$floor", OArith); ("$ceiling", OArith);
     ("$truncate", OArith); ("$round", OArith); ("$uminus", OArith);
     ("$first", OFirst); ("$rest", ORest);
     ("$strlen", OStrlen); ("$substr", OIsSubstr); ("$substrat", OIsSubstrat);
     ("$quotient_e", OArith); ("$quotient_t", OArith); ("$quotient_f", OArith);
     ("$remainder", OArith); ("$remainder_e", OArith); ("$remainder_t", OArith); ("$remainder_f", OArith)].
  Definition is_ops : list (string * op) :=
    [("$is_int", OIsInt); ("$is_real", OIsReal); ("$is_number", OIsNumber); ("$is_list", OIsList);
     ("$is_map", OIsMap); ("$is_atom", OIsAtom); ("$is_distinct", OIsUnique); ("$is_substr", OIsSubstr)].
  Fixpoint look (s : string) (l : list (string * op)) : option op :=
    match l with
    | [] => None
    | (n, o) :: l' => if String.eqb s n then Some o else look s l'
    end.
  (** wr_computable_termptr 978-1060; [arith]: use_comp_arithmetic.  Only names of one
      character have their prefix tested (1046). *)
  Definition computable (arith : bool) (f : term) : option op :=
    match uri_of f with
    | None => None
    | Some (p, s) =>
        match s with
        | EmptyString => None                                                   (* 1045 *)
        | String c r =>
            if Ascii.eqb c "$" then
              match r with
              | String c1 _ =>
                  if Ascii.eqb c1 "a" then None                                 (* 1002 *)
                  else if negb arith then None
                  else if Ascii.eqb c1 "i" then look s is_ops                   (* 1004-1014 *)
                  else look s dollar_ops
              | EmptyString => None
              end
            else if negb (String.eqb r "") then None                            (* 1045 *)
            else match p with
                 | Some _ => None                                               (* 1046 *)
                 | None =>
                     if Ascii.eqb c "=" then Some OEqual
                     else if arith && (Ascii.eqb c "+" || Ascii.eqb c "-" || Ascii.eqb c "*" || Ascii.eqb c "/")
                     then Some OArith else None
                 end
        end
    end.

  (** 421-436 with use_comp_funs=1: what becomes of a term or atom built by the reasoner *)
  Definition evaluate (arith : bool) (f : term) (args : list term) : vres :=
    match computable arith f with
    | Some o => compute o args
    | None => VLeft
    end.
End Builtin.
