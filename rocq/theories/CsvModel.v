(** Export of records to a CSV file and reading such a file.
    Code: Db/dbutil.c 61-64, 313-412, 571-639, 644-697, 705-895.

    Bytes are numbers.  Memory does not run out, creating records succeeds.  The texts printed for numbers,
    dates and times are given ([Plain]); strings, URIs and XML literals are [Str] with their whole text. *)
From Coq Require Import ZArith List Bool.
Import ListNotations.
Open Scope Z_scope.

Definition QUOTE := 34. Definition SEP := 44. Definition LF := 10. Definition CR := 13.
(** CSV_FIELD_BUF 61 *)
Definition FIELD_BUF := 4096.
Definition len (l : list Z) : Z := Z.of_nat (length l).

(** ** Writing *)
(** csv_escaped_str 325-336: [used] is optr - buf *)
Fixpoint escape (used buflen : Z) (s : list Z) : list Z :=
  match s with
  | [] => []
  | c :: s =>
      let nextsz := if c =? QUOTE then 2 else 1 in
      if used + nextsz <? buflen then
        (if c =? QUOTE then [c; QUOTE] else [c]) ++ escape (used + nextsz) buflen s
      else []
  end.
(** 313-339 *)
Definition escaped_str (s : list Z) (buflen : Z) : list Z := QUOTE :: escape 1 (buflen - 1) s ++ [QUOTE].
Inductive value := Null | Plain (t : list Z) | Str (s : list Z) | Chr (c : Z).
(** snprint_value_csv 345-412; plain texts are shorter than the buffer *)
Definition print_value (v : value) (buflen : Z) : list Z :=
  let buflen := buflen - 1 in
  match v with
  | Null => []
  | Plain t => t
  | Str s => escaped_str s buflen
  | Chr c => if c =? 0 then [] else [c]
  end.
(** wg_fprint_record_csv 661-667 *)
Fixpoint print_fields (first : bool) (l : list value) : list Z :=
  match l with
  | [] => []
  | v :: l => (if first then [] else [SEP]) ++ print_value v (FIELD_BUF - 1) ++ print_fields false l
  end.
(** wg_export_db_csv 689-694 *)
Definition export (rows : list (list value)) : list Z := flat_map (fun r => print_fields true r ++ [LF]) rows.

(** ** Reading *)
Inductive mode := Idle | Unquoted | Quoted.
(** The flags of fread_csv, the text in strbuf, the fields of the record so far, the records stored.
    The two flags for committing are cleared within the same turn of the loop. *)
Record st := mkS { md : mode; esc_quote : bool; eat_sep : bool; buf : list Z; row : list (list Z); out : list (list (list Z)) }.
Definition add (b : list Z) (c : Z) : list Z := if len b <? FIELD_BUF - 1 then b ++ [c] else b.
(** 832-862 *)
Definition commit_strbuf (s : st) : st := mkS (md s) (esc_quote s) (eat_sep s) [] (row s ++ [buf s]) (out s).
(** 864-889 *)
Definition commit_record (s : st) : st :=
  match row s with [] => s | r => mkS (md s) (esc_quote s) (eat_sep s) (buf s) [] (out s ++ [r]) end.
Definition setmode (m : mode) (s : st) : st := mkS m (esc_quote s) (eat_sep s) (buf s) (row s) (out s).
Definition seteat (b : bool) (s : st) : st := mkS (md s) (esc_quote s) b (buf s) (row s) (out s).
Definition setesc (b : bool) (s : st) : st := mkS (md s) b (eat_sep s) (buf s) (row s) (out s).
Definition put (c : Z) (s : st) : st := mkS (md s) (esc_quote s) (eat_sep s) (add (buf s) c) (row s) (out s).
(** One turn of the loop 744-889; [next]: the byte after it, None at the end *)
Definition turn (c : Z) (next : option Z) (s : st) : st :=
  match md s with
  | Quoted =>
      if negb (esc_quote s) && (c =? QUOTE) then
        if match next with Some n => n =? QUOTE | None => false end then setesc true s
        else commit_strbuf (seteat true (setmode Idle s))
      else put c (setesc false s)
  | Unquoted =>
      if c =? SEP then commit_strbuf (setmode Idle s)
      else if c =? CR then s
      else if c =? LF then commit_record (commit_strbuf (setmode Idle s))
      else put c s
  | Idle =>
      if c =? SEP then if eat_sep s then seteat false s else commit_strbuf s
      else if c =? CR then s
      else if c =? LF then
        commit_record (if eat_sep s then seteat false s else match row s with [] => s | _ => commit_strbuf s end)
      else if c =? QUOTE then setmode Quoted s
      else mkS Unquoted (esc_quote s) (eat_sep s) (buf s ++ [c]) (row s) (out s)
  end.
(** 733-890; the turn for the end of the file itself stores nothing *)
Fixpoint read (l : list Z) (s : st) : st :=
  match l with [] => s | c :: r => read r (turn c (hd_error r) s) end.
Definition import (l : list Z) : list (list (list Z)) := out (read l (mkS Idle false false [] [] [])).

(** ** The type of a field that was read *)
Inductive ty := TNull | TDate | TTime | TInt | TDouble | TStr.
Definition digit (c : Z) : bool := (48 <=? c) && (c <=? 57).
(** The loop 595-610: the number of decimal separators, 2 also when it is no number *)
Fixpoint decsep (first : bool) (n : nat) (l : list Z) (k : Z) : Z :=
  match l, n with
  | [], _ => k
  | _, O => k
  | c :: l, S n => if c =? 46 then decsep false n l (k + 1)
                   else if negb (digit c) && negb first then 2 else decsep false n l k
  end.
(** parse_input_type 571-639; [isdate], [istime]: wg_strp_iso_date, wg_strp_iso_time succeed; the numbers are
    in range *)
Definition input_type (isdate istime : list Z -> bool) (l : list Z) : ty :=
  match l with
  | [] => TNull
  | c :: r =>
      if digit c || ((c =? 45) && match r with d :: _ => digit d | [] => false end) then
        if negb (c =? 45) && isdate l then TDate
        else if negb (c =? 45) && istime l then TTime
        else let k := decsep true 79 l 0 in
             if k =? 1 then TDouble else if k =? 0 then TInt else TStr
      else TStr
  end.
