(** Reading clauses into the database: conversion of the parser's list structures to stored
    clauses.
    Code: Parser/dbparse.c 420-660 (dispatch), 1094-1195, 1197-1432, 1436-1519, 1523-1624, 1626-1644,
    1647-1837, 1839-1867; the list functions of Db/dbmpool.c 308-428, 772-792;
    Db/dbdata.c 1833-1857, 2846-2866.  Grammar actions: Parser/dbotter.y 109-312.
    The memory pool is a heap of pairs, because wg_inplace_reverselist changes pairs which other
    structures may still use.  Atoms are never changed and are kept in the pointers to them.
    [Wild]: the code would follow a pointer to something that is not a pair, or pass a NULL string
    on.  [Fail]: parse_errflag is set, an error is reported and nothing is stored.  [Spin]: the
    fuel ran out.  The pool and the database never run out of space. *)
From Coq Require Import String Ascii Bool Arith ZArith Lia List.
From Verif Require Import DateModel.
Import ListNotations.
Open Scope string_scope.
Open Scope nat_scope.

Inductive res (A : Type) := Ok (a : A) | Fail | Wild | Spin.
Arguments Ok {A} a.
Arguments Fail {A}.
Arguments Wild {A}.
Arguments Spin {A}.

(** * Atoms, pointers and pairs (dbmpool.c 308-312, 590-594, 772-792)
    The types are those the grammar makes: MKWGINT, MKWGFLOAT, MKWGURI (also with "c" and "#" as
    second string), MKWGCONST, MKWGVAR, MKWGDATE, MKWGTIME (dbgenparse.h 39-57).  An absent second
    string and an empty one are the same in the pool; [None] here. *)
Inductive aty := TInt | TDbl | TUri | TAnon | TVar | TDate | TTime.
Record watom := mka { a_ty : aty; a_s1 : string; a_s2 : option string }.
Inductive ptr := PN | PA (a : watom) | PC (n : nat).
Definition heap := list (ptr * ptr).

Definition uri (s : string) : ptr := PA (mka TUri s None).
(** wg_first, wg_rest (430-438): following anything but a pair is not modelled *)
Definition cell (h : heap) (p : ptr) : option (ptr * ptr) :=
  match p with PC n => nth_error h n | _ => None end.
(** wg_mkpair 312-323, wg_mklist3 346-353 *)
Definition mkpair (h : heap) (x y : ptr) : heap * ptr := ((h ++ [(x, y)])%list, PC (length h)).
Definition mklist3 (h : heap) (x y z : ptr) : heap * ptr :=
  let (h, t) := mkpair h z PN in
  let (h, t) := mkpair h y t in
  mkpair h x t.
(** *((gint* )ptr+1)=... *)
Fixpoint upd (h : heap) (n : nat) (c : ptr * ptr) : heap :=
  match h, n with
  | [], _ => []
  | _ :: r, O => c :: r
  | x :: r, S n => x :: upd r n c
  end.
Definition set_rest (h : heap) (n : nat) (q : ptr) : heap :=
  match nth_error h n with Some (x, _) => upd h n (x, q) | None => h end.

(** wg_inplace_reverselist 406-428: the loop from 417; [prev] is prevNode, [cur] is curNode, which
    head equals at the loop test *)
Fixpoint reverse_loop (fuel : nat) (h : heap) (prev cur : ptr) : res (heap * ptr) :=
  match fuel with
  | O => Spin
  | S fuel =>
      match cur with
      | PN => Ok (h, prev)
      | PA _ => Wild
      | PC n =>
          match nth_error h n with
          | None => Wild
          | Some (_, next) => reverse_loop fuel (set_rest h n prev) (PC n) next
          end
      end
  end.
Definition reverse_inplace (fuel : nat) (h : heap) (p : ptr) : res (heap * ptr) :=
  match p with
  | PN => Ok (h, PN)
  | PA _ => Wild
  | PC n =>
      match nth_error h n with
      | None => Wild
      | Some (_, next) => reverse_loop fuel (set_rest h n PN) (PC n) next
      end
  end.

(** wr_parse_preprocess_list 1626-1644: the loop from 1638 *)
Fixpoint list_loop (fuel : nat) (h : heap) (q : ptr) (r : ptr) : res (heap * ptr) :=
  match fuel with
  | O => Spin
  | S fuel =>
      match q with
      | PC n =>
          match nth_error h n with
          | None => Wild
          | Some (x, next) =>
              let (h, r) := mklist3 h (uri "$list") x r in
              list_loop fuel h next r
          end
      | _ => Ok (h, r)
      end
  end.
Definition preprocess_list (fuel : nat) (h : heap) (p : ptr) : res (heap * ptr) :=
  match cell h p with
  | None => Wild
  | Some (_, PN) => Ok (h, uri "$nil")
  | Some (_, q) =>
      match cell h q with
      | None => Wild
      | Some (PN, _) => Ok (h, uri "$nil")
      | Some (l, _) =>
          match reverse_inplace fuel h l with
          | Ok (h, l) => list_loop fuel h l (uri "$nil")
          | Fail => Fail | Wild => Wild | Spin => Spin
          end
      end
  end.

(** * Stored values
    Strings are stored under one word per string (C49), so the word is the string here.  A double
    is the integer of its bit pattern. *)
Inductive sval :=
  | VNull | VInt (z : Z) | VDbl (bits : Z) | VUri (s : string) (pre : option string) | VVar (n : nat)
  | VDate (z : Z) | VTime (z : Z) | VRec (l : list sval).

Definition vardatalen := 1000.                                   (* dbparse.h 50 *)

Definition upper (c : ascii) : bool := (65 <=? nat_of_ascii c) && (nat_of_ascii c <=? 90).
Definition head_is (f : ascii -> bool) (s : string) : bool :=
  match s with String c _ => f c | EmptyString => false end.

(** wg_parser_should_quote 1839-1867; a byte above 127 is a negative char, and below 48 *)
Fixpoint odd_char (s : string) : bool :=
  match s with
  | EmptyString => false
  | String c r =>
      let n := nat_of_ascii c in
      if (n =? 36) || (n =? 95) then odd_char r
      else if (n <? 48) || (127 <? n) then true
      else if (57 <? n) && (n <? 64) then true
      else if (90 <? n) && (n <? 97) then true
      else if 122 <? n then true
      else odd_char r
  end.
Definition should_quote (s : string) : bool :=
  head_is (fun c => Ascii.eqb c "0") s || odd_char s.

(** strtol in base ten on the texts that get here: an optional minus and digits *)
Fixpoint digits (s : string) (acc : Z) : Z :=
  match s with
  | EmptyString => acc
  | String c r =>
      let n := nat_of_ascii c in
      if (48 <=? n) && (n <=? 57) then digits r (acc * 10 + Z.of_nat (n - 48))%Z else acc
  end.
Definition strtol (s : string) : option Z :=
  let v := match s with
           | String c r => if Ascii.eqb c "-" then (- digits r 0)%Z else digits s 0
           | EmptyString => 0%Z
           end in
  if ((- 2 ^ 63 <=? v) && (v <? 2 ^ 63))%Z then Some v else None.
(** int intdata = strtol(...) (1653, 1690): conversion to a 32-bit int *)
Definition to_int (z : Z) : Z := ((z + 2 ^ 31) mod 2 ^ 32 - 2 ^ 31)%Z.

(** wg_strp_iso_date 1833-1844, wg_strp_iso_time 1847-1857 on the texts the scanner passes
    (dbotter.l: dddd-dd-dd and dd:dd:dd); sscanf reads the two or four digits *)
Definition strp_date (s : string) : Z :=
  ymd_to_date (digits (substring 0 4 s) 0) (digits (substring 5 2 s) 0) (digits (substring 8 2 s) 0).
Definition strp_time (s : string) : Z :=
  hms_to_time (digits (substring 0 2 s) 0) (digits (substring 3 2 s) 0) (digits (substring 6 2 s) 0) 0.

Fixpoint var_index (vd : list string) (s : string) : option nat :=
  match vd with
  | [] => None
  | x :: r => if String.eqb x s then Some 0
              else match var_index r s with Some i => Some (S i) | None => None end
  end.
(** 1724-1745, 1808-1829: [vd] is the part of vardata before the first NULL *)
Definition read_var (vd : list string) (s : string) : res (sval * list string) :=
  match var_index vd s with
  | Some i => Ok (VVar i, vd)
  | None => if length vd <? vardatalen then Ok (VVar (length vd), (vd ++ [s])%list) else Fail
  end.

Section Reading.
  (** parse_caps_as_var, parse_question_as_var *)
  Variable caps quest : bool.
  (** the C library's strtod; [None]: ERANGE *)
  Variable strtod : string -> option Z.

  Definition var_name (s : string) : bool :=
    (caps && head_is upper s) || (quest && head_is (fun c => Ascii.eqb c "?") s).

  (** wr_parse_primitive 1647-1837 *)
  Definition parse_primitive (p : ptr) (vd : list string) (pos : nat) : res (sval * list string) :=
    match p with
    | PN => Ok (VNull, vd)
    | PC _ => Wild
    | PA a =>
        let s := a_s1 a in
        if String.eqb s "" then Wild else
        match a_ty a with
        | TInt => match strtol s with Some z => Ok (VInt (to_int z), vd) | None => Fail end
        | TDbl => match strtod s with Some b => Ok (VDbl b, vd) | None => Fail end
        | TUri =>
            match a_s2 a with
            | Some pre => Ok (VUri s (Some pre), vd)
            | None => if pos =? 0 then Ok (VUri s None, vd)
                      else if var_name s then read_var vd s
                      else Ok (VUri s None, vd)
            end
        | TDate => Ok (VDate (strp_date s), vd)
        | TTime => Ok (VTime (strp_time s), vd)
        | TAnon =>
            if (match a_s2 a with None => true | _ => false end) && String.eqb (substring 0 2 s) "#:"
            then Ok (VUri (substring 2 (String.length s - 2) s) (Some "#"), vd)
            else if (pos =? 0) && existsb (String.eqb s) ["="; "-"; "+"; "*"; "/"]
            then Ok (VUri s None, vd)                            (* wg_encode_anonconst 2846-2866 *)
            else if head_is upper s || should_quote s then Ok (VUri s (Some "c"), vd)
            else Ok (VUri s None, vd)
        | TVar => read_var vd s
        end
    end.

  (** 1583-1593: TPTP names of the arithmetic functions, only at the head of a term *)
  Definition arith_name (p : ptr) : ptr :=
    match p with
    | PA a =>
        if String.eqb (a_s1 a) "$sum" then uri "+"
        else if String.eqb (a_s1 a) "$difference" then uri "-"
        else if String.eqb (a_s1 a) "$product" then uri "*"
        else if String.eqb (a_s1 a) "$quotient" then uri "/"
        else p
    | _ => p
    end.
  Definition is_lst (a : watom) : bool := String.eqb (a_s1 a) "$$lst".

  (** wr_parse_term 1523-1624.  The record is made of the values in the order of the walk; its
      length is counted before the walk in the code. *)
  Fixpoint parse_term (fuel : nat) (h : heap) (vd : list string) (p : ptr) {struct fuel}
    : res (sval * heap * list string) :=
    match fuel with
    | O => Spin
    | S fuel =>
        match cell h p with
        | None => Wild
        | Some (hd, _) =>
            let pre :=
              match hd with
              | PA a => if String.eqb (a_s1 a) "" then Wild
                        else if is_lst a then preprocess_list fuel h p else Ok (h, p)
              | _ => Ok (h, p)
              end in
            match pre with
            | Ok (h, PC n) =>
                match parse_args fuel h vd (PC n) 0 true with
                | Ok (l, h, vd) => Ok (VRec l, h, vd)
                | Fail => Fail | Wild => Wild | Spin => Spin
                end
            | Ok (h, q) =>
                match parse_primitive q vd 0 with
                | Ok (v, vd) => Ok (v, h, vd)
                | Fail => Fail | Wild => Wild | Spin => Spin
                end
            | Fail => Fail | Wild => Wild | Spin => Spin
            end
        end
    end
  (** the walks 1572-1620 (in a term) and 1471-1515 (in an atom) *)
  with parse_args (fuel : nat) (h : heap) (vd : list string) (q : ptr) (pos : nat) (term : bool) {struct fuel}
    : res (list sval * heap * list string) :=
    match fuel with
    | O => Spin
    | S fuel =>
        match q with
        | PC n =>
            match nth_error h n with
            | None => Wild
            | Some (x, _) =>
                let one :=
                  match x with
                  | PC _ => parse_term fuel h vd x
                  | _ =>
                      match parse_primitive (if term && (pos =? 0) then arith_name x else x) vd pos with
                      | Ok (v, vd) => Ok (v, h, vd)
                      | Fail => Fail | Wild => Wild | Spin => Spin
                      end
                  end in
                match one with
                | Ok (v, h, vd) =>
                    match v, term with
                    | VNull, false => Fail                        (* 1492, 1509: an encoded null is 0 *)
                    | _, _ =>
                        (* termpart=wg_rest(db,termpart) is done after the element *)
                        match nth_error h n with
                        | None => Wild
                        | Some (_, next) =>
                            match parse_args fuel h vd next (S pos) term with
                            | Ok (l, h, vd) => Ok (v :: l, h, vd)
                            | Fail => Fail | Wild => Wild | Spin => Spin
                            end
                        end
                    end
                | Fail => Fail | Wild => Wild | Spin => Spin
                end
            end
        | _ => Ok ([], h, vd)
        end
    end.

  (** wr_parse_atom 1436-1519 *)
  Definition parse_atom (fuel : nat) (h : heap) (vd : list string) (p : ptr) : res (sval * heap * list string) :=
    match parse_args fuel h vd p 0 false with
    | Ok (l, h, vd) => Ok (VRec l, h, vd)
    | Fail => Fail | Wild => Wild | Spin => Spin
    end.

  (** A stored clause: a fact record, or a rule record with a sign per literal ([true]: negative). *)
  Inductive stored := SFact (a : sval) | SRule (l : list (bool * sval)).

  Definition is_not (p : ptr) : bool :=
    match p with PA a => match a_ty a with TAnon => String.eqb (a_s1 a) "not" | _ => false end | _ => false end.
  (** 1313-1315 also look at the second string *)
  Definition is_neg (p : ptr) : bool :=
    is_not p && match p with PA a => match a_s2 a with None => true | _ => false end | _ => false end.

  (** 1246-1259: no argument is a list, a variable, or -- as the test is written, with a second
      string -- a name read as a variable *)
  Fixpoint simple_args (fuel : nat) (h : heap) (q : ptr) : res bool :=
    match fuel with
    | O => Spin
    | S fuel =>
        match q with
        | PC n =>
            match nth_error h n with
            | None => Wild
            | Some (x, next) =>
                match x with
                | PC _ => Ok false
                | PN => simple_args fuel h next
                | PA a =>
                    match a_ty a with
                    | TVar => Ok false
                    | TUri => match a_s2 a with
                              | Some _ => if var_name (a_s1 a) then Ok false else simple_args fuel h next
                              | None => simple_args fuel h next
                              end
                    | _ => simple_args fuel h next
                    end
                end
            end
        | _ => Ok true
        end
    end.
  (** 1231-1260 for one literal *)
  Definition simple_lit (fuel : nat) (h : heap) (p : ptr) : res bool :=
    match p with
    | PC n =>
        match nth_error h n with
        | None => Wild
        | Some (f, _) => if is_not f then Ok false else simple_args fuel h p
        end
    | _ => Ok false
    end.
  Fixpoint simple_lits (fuel : nat) (h : heap) (cl : list ptr) : res bool :=
    match cl with
    | [] => Ok true
    | p :: r =>
        match simple_lit fuel h p, simple_lits fuel h r with
        | Ok a, Ok b => Ok (a && b)
        | Wild, _ => Wild | Spin, _ => Spin
        | _, x => x
        end
    end.

  Definition propfun : ptr := uri "$pr".                          (* dbparse.h 42 *)
  (** 1285-1300, 1330-1343: a proposition p becomes $pr(p) *)
  Definition wrap (h : heap) (p : ptr) : heap * ptr :=
    match p with
    | PC _ => (h, p)
    | _ => let (h, t) := mkpair h p PN in mkpair h propfun t
    end.
  (** 1302-1311, 1345-1355 *)
  Definition atomic_head (h : heap) (p : ptr) : res unit :=
    match cell h p with
    | Some (PA _, _) => Ok tt
    | Some _ => Fail
    | None => Wild
    end.
  (** 1277-1364 for one literal *)
  Definition parse_lit (fuel : nat) (h : heap) (vd : list string) (p : ptr)
    : res (bool * sval * heap * list string) :=
    let (h, lit) := wrap h p in
    match atomic_head h lit with
    | Ok _ =>
        match cell h lit with
        | Some (f, tl) =>
            if is_neg f then
              match tl with
              | PC m =>
                  match nth_error h m with
                  | None => Wild
                  | Some (x, _) =>
                      let (h, at_) := wrap h x in
                      match atomic_head h at_ with
                      | Ok _ =>
                          match parse_atom fuel h vd at_ with
                          | Ok (v, h, vd) => Ok (true, v, h, vd)
                          | Fail => Fail | Wild => Wild | Spin => Spin
                          end
                      | Fail => Fail | Wild => Wild | Spin => Spin
                      end
                  end
              | _ => Fail
              end
            else
              match parse_atom fuel h vd lit with
              | Ok (v, h, vd) => Ok (false, v, h, vd)
              | Fail => Fail | Wild => Wild | Spin => Spin
              end
        | None => Wild
        end
    | Fail => Fail | Wild => Wild | Spin => Spin
    end.
  Fixpoint parse_lits (fuel : nat) (h : heap) (vd : list string) (cl : list ptr)
    : res (list (bool * sval) * heap * list string) :=
    match cl with
    | [] => Ok ([], h, vd)
    | p :: r =>
        match parse_lit fuel h vd p with
        | Ok (n, v, h, vd) =>
            match parse_lits fuel h vd r with
            | Ok (l, h, vd) => Ok ((n, v) :: l, h, vd)
            | Fail => Fail | Wild => Wild | Spin => Spin
            end
        | Fail => Fail | Wild => Wild | Spin => Spin
        end
    end.

  (** wr_parse_clause 1197-1432.  [cl] is the list of literals wr_flatten_logclause_or has made;
      its pairs are new and used only here.  vardata is emptied first (1272-1275). *)
  Definition parse_clause (fuel : nat) (h : heap) (cl : list ptr) : res (stored * heap) :=
    match simple_lits fuel h cl with
    | Ok b =>
        if b && (length cl <=? 1) then
          match cl with
          | p :: _ =>
              match parse_lit fuel h [] p with
              | Ok (_, v, h, _) => Ok (SFact v, h)
              | Fail => Fail | Wild => Wild | Spin => Spin
              end
          | [] => Wild                                            (* record stays NULL: 1420 *)
          end
        else
          match parse_lits fuel h [] cl with
          | Ok (l, h, _) => Ok (SRule l, h)
          | Fail => Fail | Wild => Wild | Spin => Spin
          end
    | Fail => Fail | Wild => Wild | Spin => Spin
    end.

  (** wr_parse_clauselist 1128-1191, the clauses of a file after flattening, in order *)
  Fixpoint parse_clauses (fuel : nat) (h : heap) (cls : list (list ptr)) : res (list stored * heap) :=
    match cls with
    | [] => Ok ([], h)
    | cl :: r =>
        match parse_clause fuel h cl with
        | Ok (c, h) =>
            match parse_clauses fuel h r with
            | Ok (l, h) => Ok (c :: l, h)
            | Fail => Fail | Wild => Wild | Spin => Spin
            end
        | Fail => Fail | Wild => Wild | Spin => Spin
        end
    end.
End Reading.

(** * Roles (1397-1419; PARSER_..._ROLENR and IMPORTED_NAME_PREFIX: dbparse.h 45-51)
    [None] for a name or role that is absent or is not a name. *)
Inductive role := RAxiom | RExt | RAssumption | RGoal.
Definition imported_prefix := "$inc_".
Definition read_role (name rolename : option string) : role :=
  match rolename with
  | None => RAxiom
  | Some r =>
      if String.eqb r "conjecture" || String.eqb r "negated_conjecture" then RGoal
      else if String.eqb r "hypothesis" || String.eqb r "assumption" then RAssumption
      else if String.eqb r "axiom" && match name with Some n => prefix imported_prefix n | None => false end
           then RExt
      else RAxiom
  end.

(** * Which statements are converted to clauses first (420-640)
    cnf statements are taken as they are (497), fof statements go through wr_clausify_formula (564);
    a statement in the plain syntax does too (633), but not in an included file (629-630). *)
Inductive kind := Cnf | Fof | Plain.
Definition clausified (k : kind) (included : bool) : bool :=
  match k with Cnf => false | Fof => true | Plain => negb included end.

(** wr_clausify_distribute 905-960, the case (v (& a b) c) with literals a, b and c that are no
    connectives: the clauses (v a c) and (v b c), which wr_flatten_logclause makes into lists.  The
    same pointer c is in both. *)
Definition distribute_literals (a b c : ptr) : list (list ptr) := [[a; c]; [b; c]].
