(** Printing clauses into a growing text buffer: Printer/dbotterprint.c 435-1312, Reasoner/mem.c 494-520. *)
From Coq Require Import String Ascii List ZArith Bool.
From Verif Require Import Word64.
Import ListNotations.
Open Scope string_scope.
Open Scope Z_scope.
Open Scope list_scope.

(** Texts are lists of bytes. *)
Definition str := list ascii.
Definition S_ (s : string) : str := list_ascii_of_string s.
Definition slen (s : str) : Z := Z.of_nat (length s).
Definition ch (n : nat) : ascii := ascii_of_nat n.
(** The double quote, the single quote, the backslash and the blank. *)
Definition DQ : ascii := ch 34.
Definition SQ : ascii := ch 39.
Definition BS : ascii := ch 92.
Definition SP : ascii := ch 32.
Definition str_eqb (a b : str) : bool := if list_eq_dec ascii_dec a b then true else false.

(** An encoded value that is not a record, with its text decoded (Db/dbdata.c 3280-3304, 2240-2300).  A constant or a
    function symbol is a URI with an optional prefix.  Doubles are kept as their bits.
    Simplified: the types char, date, time, XML literal, blob and fixpoint are left out. *)
Inductive val :=
  | VNull
  | VInt (z : Z)
  | VDbl (d : Z)
  | VStr (s : str)
  | VUri (pre : option str) (name : str)
  | VVar (i : Z)
  | VAnon (name : str).

(** A value, or a record: its fields from position unify_firstuseterm on, the function or predicate symbol first. *)
Inductive tm := Leaf (v : val) | Rec (fs : list tm).

(** A rule clause is a list of literals, each negative (true) or positive; a fact clause is the record of its only atom. *)
Inductive clause := Rule (lits : list (bool * tm)) | Fact (fs : list tm).

(** print_clauses_json on, or all of print_json, print_clauses_json and print_clauses_tptp off.
    Simplified: the TPTP form is left out, and so is print_json without print_clauses_json, since every place that sets the
    one sets the other (glb.c 106-109, guide.c 193-198, rmain.c 458-461, init.c 120-123). *)
Inductive mode := Json | Plain.

(** The buffer: the bytes written before the position, and the allocated length *len. *)
Record buf := { txt : str; blen : Z }.
Definition pos (b : buf) : Z := slen (txt b).

(** A run goes on with the buffer, gives up (-1), or has written outside the buffer. *)
Inductive res := Ok (b : buf) | Fail | Overrun.
Definition bind (r : res) (k : buf -> res) : res :=
  match r with Ok b => k b | Fail => Fail | Overrun => Overrun end.
Notation "'let*' b ':=' r 'in' k" := (bind r (fun b => k)) (at level 200, b name, right associativity).

(** mem.c 501-507: double the length until it exceeds what is needed, but not over 10^9.  31 rounds are enough. *)
Fixpoint grow (fuel : nat) (newlen needed : Z) : option Z :=
  match fuel with
  | O => None
  | S f => let n := newlen * 2 in
           if 1000000000 <? n then None else if needed <? n then Some n else grow f n needed
  end.

(** mem.c 494-520 wr_str_guarantee_space.  Simplified: realloc never fails. *)
Definition guarantee (b : buf) (needed : Z) : res :=
  if needed <=? blen b then Ok b
  else match grow 31 (blen b) needed with
       | Some l => Ok {| txt := txt b; blen := l |}
       | None => Fail
       end.

(** pos+=snprintf((\*buf)+pos,(\*len)-pos,...): the position moves by the length of the whole text, but only what fits
    before the end, with the closing zero, is written.  The places skipped are those the next wr_str_guarantee_space clears
    to blanks (mem.c 513), the zero at the end among them.  A negative size is converted to a huge unsigned one. *)
Definition put (b : buf) (s : str) : res :=
  let room := blen b - pos b in
  if room <? 0 then Overrun
  else let n := Z.to_nat (room - 1) in
       Ok {| txt := txt b ++ firstn n s ++ repeat SP (length s - n); blen := blen b |}.

(** Bytes stored one by one (dbotterprint.c 1109-1220).  The end of the buffer is tested only after the byte has been
    stored and not at all for the closing quote, so a text that does not fit is written outside. *)
Definition raw (b : buf) (s : str) : res :=
  if pos b + slen s <=? blen b then Ok {| txt := txt b ++ s; blen := blen b |} else Overrun.

(** printf's %d of a C int: at most ten digits. *)
Definition digit (z : Z) : ascii := ch (48 + Z.to_nat z).
Fixpoint digits (fuel : nat) (z : Z) : str :=
  match fuel with
  | O => []
  | S f => if z <? 10 then [digit z] else digits f (z / 10) ++ [digit (z mod 10)]
  end.
Definition dec (z : Z) : str := if z <? 0 then ch 45 :: digits 10 (- z) else digits 10 z.

(** dbotterprint.c 56. *)
Definition EMPTYSTRING : str := S_ "$emptystr".

(** dbotterprint.c 1093-1107 wg_contains_quote, wg_contains_dquote. *)
Definition contains (q : ascii) (s : str) : bool := existsb (Ascii.eqb q) s.

(** dbotterprint.c 1066-1091 wg_should_quote.  char is signed: bytes from 128 on are below 48. *)
Definition code (c : ascii) : Z := let n := Z.of_nat (nat_of_ascii c) in if 128 <=? n then n - 256 else n.
Definition odd_char (c : ascii) : bool :=
  if (Ascii.eqb c (ch 36) || Ascii.eqb c (ch 95))%bool then false
  else (code c <? 48) || ((57 <? code c) && (code c <? 64)) || ((90 <? code c) && (code c <? 97)) || (122 <? code c).
Definition should_quote (s : str) : bool :=
  if (match s with
      | [c] => existsb (Ascii.eqb c) (S_ "=-+*/><")
      | _ => false
      end) then false
  else existsb odd_char s.

(** The name with a backslash before each quote: dbotterprint.c 1116-1124, 1162-1178, 1205-1213. *)
Definition esc (q : ascii) (s : str) : str := flat_map (fun c => if Ascii.eqb c q then [BS; c] else [c]) s.

(** dbotterprint.c 1109-1129 wg_print_quoted; 1131-1186 wg_print_quoted2; 1188-1220 wg_print_dquoted. *)
Definition quoted (s : str) : str := SQ :: esc SQ s ++ [SQ].
Definition is_hash (pre : str) : bool := str_eqb pre (S_ "#").
Definition quoted2 (pre s : str) : str :=
  let q := if is_hash pre then DQ else SQ in q :: esc q s ++ [q].
Definition dquoted (s : str) (neg uniq : bool) : str :=
  DQ :: (if neg then S_ "-" else []) ++ (if uniq then S_ "#:" else []) ++ esc DQ s ++ [DQ].

(** dbotterprint.c 1266-1312 wg_nice_strprint_var. *)
Definition var_names : list (Z * string) :=
  [(1000, "X1"); (1001, "Y1"); (1002, "Z1"); (1003, "U1"); (1004, "V1"); (1005, "W1");
   (2000, "X"); (2001, "Y"); (2002, "Z"); (2003, "U"); (2004, "V"); (2005, "W");
   (3000, "X3"); (3001, "Y3"); (3002, "Z3"); (3003, "U3"); (3004, "V3"); (3005, "W3")].
Definition var_name (m : mode) (i : Z) : str :=
  match find (fun p => fst p =? i) var_names with
  | Some p => S_ (snd p)
  | None => match m with Json => dec (w32 i) | Plain => S_ "X" ++ dec (w32 i) end
  end.
Definition print_var (m : mode) (i : Z) (b : buf) : res :=
  let* b := guarantee b (pos b + 20) in
  match m with
  | Json => put b (DQ :: S_ "?:" ++ var_name m i ++ [DQ])
  | Plain => put b (var_name m i)
  end.

(** dbotterprint.c 784-799: the functions written as an operator get a name inside terms. *)
Definition op_name (s : str) : option str :=
  if str_eqb s (S_ "+") then Some (S_ "$sum")
  else if str_eqb s (S_ "*") then Some (S_ "$product")
  else if str_eqb s (S_ "-") then Some (S_ "$difference")
  else if str_eqb s (S_ "/") then Some (S_ "$quotient")
  else if str_eqb s (S_ "<") then Some (S_ "$less")
  else None.

Section Printer.
(** printf's %f of the double with the given bits. *)
Variable fmt : Z -> str.
Variable m : mode.

(** dbotterprint.c 825-1062 wr_strprint_simpleterm_otter.  Integers pass through an int variable. *)
Definition simple (v : val) (neg : bool) (b : buf) : res :=
  let* b := guarantee b (pos b + 50) in
  match v with
  | VNull => put b (S_ "NULL")
  | VInt z => put b (dec (w32 z))
  | VDbl d => put b (fmt d)
  | VStr s =>
      let* b := guarantee b (pos b + slen s + 50) in
      match m with
      | Json => put b (DQ :: (if neg then S_ "-:" else S_ ":") ++ s ++ [DQ])
      | Plain => put b (S_ ":" ++ s)
      end
  | VUri None n =>
      let* b := guarantee b (pos b + slen n + 100) in
      match m with
      | Json =>
          if neg then
            if contains DQ n then raw b (dquoted n true false) else put b (DQ :: S_ "-" ++ n ++ [DQ])
          else if str_eqb n EMPTYSTRING then put b [DQ; DQ]
          else if contains DQ n then raw b (dquoted n false false)
          else put b (DQ :: n ++ [DQ])
      | Plain =>
          if neg then
            if contains SQ n then let* b := put b (S_ "-") in raw b (quoted n)
            else if should_quote n then put b (S_ "-" ++ SQ :: n ++ [SQ])
            else put b (S_ "-" ++ n)
          else if str_eqb n EMPTYSTRING then put b [SQ; SQ]
          else if contains SQ n then raw b (quoted n)
          else if should_quote n then put b (SQ :: n ++ [SQ])
          else put b n
      end
  | VUri (Some p) n =>
      let* b := guarantee b (pos b + slen n + slen p + 100) in
      match m with
      | Json =>
          let uniq := is_hash p in
          if contains DQ n then raw b (dquoted n neg uniq)
          else put b (DQ :: (if neg then S_ "-" else []) ++ (if uniq then S_ "#:" else []) ++ n ++ [DQ])
      | Plain =>
          let* b := (if neg then put b (S_ "-") else Ok b) in raw b (quoted2 p n)
      end
  | VVar i => print_var m i b
  | VAnon n =>
      let* b := guarantee b (pos b + slen n + 50) in
      match m with
      | Json => if neg then put b (DQ :: S_ "-" ++ [DQ]) else put b [DQ; DQ]
      | Plain => if neg then put b (S_ "-!") else put b (S_ "!")
      end
  end.

(** dbotterprint.c 783-806: a field of a term that is not a record. *)
Definition term_leaf (v : val) (b : buf) : res :=
  match v with
  | VUri _ n => match op_name n with Some s => put b s | None => simple v false b end
  | _ => simple v false b
  end.

(** dbotterprint.c 756-820 wr_strprint_term_otter; k counts the fields from the function symbol on. *)
Fixpoint term (t : tm) (b : buf) : res :=
  match t with
  | Leaf v => simple v false b
  | Rec fs =>
      let* b := guarantee b (pos b + 10) in
      let* b := (match m with Json => put b (S_ "[") | Plain => Ok b end) in
      let* b := (fix fields (k : nat) (l : list tm) (b : buf) : res :=
                   match l with
                   | [] => Ok b
                   | f :: r =>
                       let* b := guarantee b (pos b + 10) in
                       let* b := (if (1 <? k)%nat then put b (S_ ",") else Ok b) in
                       let* b := (match f with Rec _ => term f b | Leaf v => term_leaf v b end) in
                       let* b := guarantee b (pos b + 10) in
                       let* b := (if (k =? 0)%nat
                                  then put b (match m with Json => S_ "," | Plain => S_ "(" end)
                                  else Ok b) in
                       fields (S k) r b
                   end) O fs b in
      let* b := guarantee b (pos b + 10) in
      put b (match m with Json => S_ "]" | Plain => S_ ")" end)
  end.

(** dbotterprint.c 686-753 wr_strprint_atom_otter. *)
Fixpoint atom_fields (neg : bool) (k : nat) (l : list tm) (b : buf) : res :=
  match l with
  | [] => Ok b
  | f :: r =>
      let* b := guarantee b (pos b + 10) in
      let* b := (if (1 <? k)%nat then put b (S_ ",") else Ok b) in
      let* b := (match f with Rec _ => term f b | Leaf v => simple v (neg && (k =? 0)%nat) b end) in
      let* b := guarantee b (pos b + 10) in
      let* b := (if (k =? 0)%nat
                 then match m with
                      | Json => match r with [] => Ok b | _ => put b (S_ ",") end
                      | Plain => put b (S_ "(")
                      end
                 else Ok b) in
      atom_fields neg (S k) r b
  end.
Definition atom (fs : list tm) (neg : bool) (b : buf) : res :=
  let* b := guarantee b (pos b + 10) in
  let* b := (match m with Json => put b (S_ "[") | Plain => Ok b end) in
  let* b := atom_fields neg O fs b in
  let* b := guarantee b (pos b + 10) in
  put b (match m with Json => S_ "]" | Plain => S_ ")" end).

(** dbotterprint.c 508-557: the literals of a rule clause. *)
Fixpoint rule_lits (i : nat) (l : list (bool * tm)) (b : buf) : res :=
  match l with
  | [] => Ok b
  | (neg, t) :: r =>
      let* b := (if (0 <? i)%nat
                 then let* b := guarantee b (pos b + 10) in
                      put b (match m with Json => S_ ", " | Plain => S_ " | " end)
                 else Ok b) in
      let* b := guarantee b (pos b + 10) in
      let* b := (match m with Json => Ok b | Plain => if neg then put b (S_ "-") else Ok b end) in
      let* b := (match t with
                 | Rec fs => match m with Json => atom fs neg b | Plain => term t b end
                 | Leaf v => simple v false b
                 end) in
      rule_lits (S i) r b
  end.

(** dbotterprint.c 486-575 wr_strprint_rule_clause_otter, 580-640 wr_strprint_fact_clause_otter. *)
Definition rule_clause (l : list (bool * tm)) (b : buf) : res :=
  let* b := guarantee b (pos b + 10) in
  let* b := (match m with Json => put b (S_ "[") | Plain => Ok b end) in
  let* b := rule_lits O l b in
  let* b := guarantee b (pos b + 10) in
  put b (match m with Json => S_ "]" | Plain => S_ "." end).
Definition fact_clause (fs : list tm) (b : buf) : res :=
  let* b := guarantee b (pos b + 10) in
  match m with
  | Json =>
      let* b := put b (S_ "[") in
      let* b := atom fs false b in
      let* b := guarantee b (pos b + 10) in
      put b (S_ "]")
  | Plain =>
      let* b := atom fs false b in
      let* b := guarantee b (pos b + 10) in
      put b (S_ ".")
  end.

(** dbotterprint.c 435-480 wr_strprint_clause, wr_strprint_clause_otter; None is the null pointer, the empty clause.
    Left out: propositional clauses (642-684). *)
Definition print_clause (c : option clause) (b : buf) : res :=
  let* b := guarantee b (pos b + 10) in
  match c with
  | None => put b (S_ "false")
  | Some c =>
      let* b := guarantee b (pos b + 10) in
      match c with
      | Rule l => rule_clause l b
      | Fact fs => fact_clause fs b
      end
  end.
End Printer.
