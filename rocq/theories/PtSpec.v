(** What a printed clause must be: a JSON text, as in RFC 8259, of a value that gives the clause. *)
From Coq Require Import String Ascii List ZArith Bool.
From Verif Require Import Word64 PtModel.
Import ListNotations.
Open Scope string_scope.
Open Scope Z_scope.
Open Scope list_scope.

(** * JSON *)

(** A character of a string: a byte, or an escape \uXXXX kept as its four digits. *)
Inductive jchar := Byte (a : ascii) | Uni (h1 h2 h3 h4 : ascii).
Inductive json :=
  | JNull | JTrue | JFalse
  | JNum (s : str)
  | JStr (l : list jchar)
  | JArr (l : list json)
  | JObj (l : list (list jchar * json)).

Definition is_digit (a : ascii) : bool := existsb (Ascii.eqb a) (S_ "0123456789").
Definition is_hex (a : ascii) : bool := existsb (Ascii.eqb a) (S_ "0123456789abcdefABCDEF").
Definition all (p : ascii -> bool) (s : str) : Prop := forallb p s = true.
Definition digs (s : str) : Prop := s <> [] /\ all is_digit s.

(** RFC 8259, 6: [ minus ] int [ frac ] [ exp ]. *)
Definition int_part (s : str) : Prop := s = S_ "0" \/ (digs s /\ forall r, s <> ch 48 :: r).
Definition frac_part (s : str) : Prop := exists d, s = ch 46 :: d /\ digs d.
Definition exp_part (s : str) : Prop :=
  exists e sg d, s = e :: sg ++ d /\ (e = ch 101 \/ e = ch 69) /\ (sg = [] \/ sg = [ch 43] \/ sg = [ch 45]) /\ digs d.
Definition number (s : str) : Prop :=
  exists sg i f e, s = sg ++ i ++ f ++ e /\ (sg = [] \/ sg = [ch 45]) /\ int_part i /\
    (f = [] \/ frac_part f) /\ (e = [] \/ exp_part e).

(** RFC 8259, 7: a byte below 32, a quote or a backslash does not stand for itself. *)
Definition plain_char (a : ascii) : Prop := (32 <= nat_of_ascii a)%nat /\ a <> DQ /\ a <> BS.
(** The short escapes: quote, backslash, slash, b, f, n, r, t. *)
Definition escapes : list (ascii * ascii) :=
  [(ch 34, ch 34); (ch 92, ch 92); (ch 47, ch 47); (ch 98, ch 8); (ch 102, ch 12); (ch 110, ch 10); (ch 114, ch 13); (ch 116, ch 9)].
Inductive chars : list jchar -> str -> Prop :=
  | C_end : chars [] []
  | C_plain a l s : plain_char a -> chars l s -> chars (Byte a :: l) (a :: s)
  | C_esc e a l s : In (e, a) escapes -> chars l s -> chars (Byte a :: l) (BS :: e :: s)
  | C_uni h1 h2 h3 h4 l s : all is_hex [h1; h2; h3; h4] -> chars l s ->
      chars (Uni h1 h2 h3 h4 :: l) (BS :: ch 117 :: h1 :: h2 :: h3 :: h4 :: s).

Definition blank (s : str) : Prop := all (fun a => existsb (Ascii.eqb a) [ch 32; ch 9; ch 10; ch 13]) s.

(** RFC 8259, 3-5. *)
Inductive value : json -> str -> Prop :=
  | V_null : value JNull (S_ "null")
  | V_true : value JTrue (S_ "true")
  | V_false : value JFalse (S_ "false")
  | V_num s : number s -> value (JNum s) s
  | V_str l s : chars l s -> value (JStr l) (DQ :: s ++ [DQ])
  | V_arr0 w : blank w -> value (JArr []) (S_ "[" ++ w ++ S_ "]")
  | V_arr l s : items l s -> value (JArr l) (S_ "[" ++ s ++ S_ "]")
  | V_obj0 w : blank w -> value (JObj []) (S_ "{" ++ w ++ S_ "}")
  | V_obj l s : members l s -> value (JObj l) (S_ "{" ++ s ++ S_ "}")
with items : list json -> str -> Prop :=
  | I_one j w s w' : blank w -> value j s -> blank w' -> items [j] (w ++ s ++ w')
  | I_more j w s w' l t : blank w -> value j s -> blank w' -> items l t -> items (j :: l) (w ++ s ++ w' ++ S_ "," ++ t)
with members : list (list jchar * json) -> str -> Prop :=
  | M_one k ks j w s w' v v' : blank w -> chars k ks -> blank w' -> blank v -> value j s -> blank v' ->
      members [(k, j)] (w ++ (DQ :: ks ++ [DQ]) ++ w' ++ S_ ":" ++ v ++ s ++ v')
  | M_more k ks j w s w' v v' l t : blank w -> chars k ks -> blank w' -> blank v -> value j s -> blank v' -> members l t ->
      members ((k, j) :: l) (w ++ (DQ :: ks ++ [DQ]) ++ w' ++ S_ ":" ++ v ++ s ++ v' ++ S_ "," ++ t).
Definition json_text (j : json) (s : str) : Prop := exists w t w', blank w /\ value j t /\ blank w' /\ s = w ++ t ++ w'.

(** The integer a decimal text stands for. *)
Fixpoint dval (acc : Z) (s : str) : Z :=
  match s with [] => acc | a :: r => dval (acc * 10 + (Z.of_nat (nat_of_ascii a) - 48)) r end.
Definition int_value (s : str) : Z :=
  match s with
  | a :: r => if Ascii.eqb a (ch 45) then - dval 0 r else dval 0 s
  | [] => 0
  end.

(** * The JSON value of a clause *)

Definition bytes (s : str) : json := JStr (map Byte s).
Definition distinct_pre (p : option str) : bool := match p with Some q => str_eqb q (S_ "#") | None => false end.
(** A distinct symbol has #: before its name.  The name "$emptystr" is what the parsers make of ''. *)
Definition sym_text (p : option str) (n : str) : str :=
  if distinct_pre p then S_ "#:" ++ n
  else match p with None => if str_eqb n (S_ "$emptystr") then [] else n | Some _ => n end.

Section Value.
(** How variables are named, how integers and doubles are written. *)
Variables (nm num fmt : Z -> str).
Definition leaf_json (v : val) : json :=
  match v with
  | VInt z => JNum (num z)
  | VDbl d => JNum (fmt d)
  | VUri p n => bytes (sym_text p n)
  | VVar i => bytes (S_ "?:" ++ nm i)
  | _ => JNull
  end.
Fixpoint term_json (t : tm) : json :=
  match t with Leaf v => leaf_json v | Rec fs => JArr (map term_json fs) end.
(** The sign of a literal stands before the predicate. *)
Definition lit_json (l : bool * list tm) : json :=
  match l with
  | (neg, Leaf (VUri p n) :: args) =>
      JArr (bytes ((if neg then S_ "-" else []) ++ sym_text p n) :: map term_json args)
  | _ => JNull
  end.
End Value.

(** The literals of a clause, each as its sign and the fields of its atom. *)
Definition fields (t : tm) : list tm := match t with Rec fs => fs | Leaf v => [Leaf v] end.
Definition literals (c : clause) : list (bool * list tm) :=
  match c with Rule l => map (fun p => (fst p, fields (snd p))) l | Fact fs => [(false, fs)] end.
Definition clause_json (nm num fmt : Z -> str) (c : option clause) : json :=
  match c with None => JFalse | Some c => JArr (map (lit_json nm num fmt) (literals c)) end.

(** * The clauses the theorems are about *)

(** How many bytes of a name are the given quote. *)
Definition quotes (q : ascii) (n : str) : Z := slen (filter (Ascii.eqb q) n).
(** No control characters, no backslash, and not too many quotes. *)
Definition clean_name (n : str) : Prop :=
  Forall (fun a => (32 <= nat_of_ascii a)%nat /\ a <> BS) n /\ quotes DQ n <= 90.
Definition is_op (v : val) : Prop := match v with VUri _ n => In n (map S_ ["+"; "*"; "-"; "/"; "<"]) | _ => False end.

Section Clean.
Variable fmt : Z -> str.
Definition short_pre (p : option str) : Prop := match p with Some q => slen q <= 100 | None => True end.
Definition clean_leaf (v : val) : Prop :=
  match v with
  | VInt z => - 2 ^ 31 <= z < 2 ^ 31
  | VDbl d => number (fmt d) /\ slen (fmt d) <= 40
  | VUri p n => clean_name n /\ short_pre p
  | VVar i => 0 <= i < 2 ^ 31
  | _ => False
  end.
(** A term has a function symbol and at least one argument, and no operator among its direct parts. *)
Fixpoint clean_term (t : tm) : Prop :=
  match t with
  | Leaf v => clean_leaf v
  | Rec fs =>
      (2 <= length fs)%nat /\
      (fix every (l : list tm) : Prop :=
         match l with
         | [] => True
         | f :: r => clean_term f /\ (match f with Leaf v => ~ is_op v | Rec _ => True end) /\ every r
         end) fs
  end.
Definition clean_atom (fs : list tm) : Prop :=
  match fs with
  | Leaf (VUri p n) :: args => clean_name n /\ short_pre p /\ n <> S_ "$emptystr" /\ Forall clean_term args
  | _ => False
  end.
Definition clean_clause (c : clause) : Prop :=
  match c with
  | Rule l => Forall (fun p => match snd p with Rec fs => clean_atom fs | Leaf _ => False end) l
  | Fact fs => clean_atom fs
  end.
Definition clean (c : option clause) : Prop := match c with Some c => clean_clause c | None => True end.
End Clean.

(** The property of every value in a term, of every value in a clause. *)
Fixpoint in_term (P : val -> Prop) (t : tm) : Prop :=
  match t with
  | Leaf v => P v
  | Rec fs => (fix every (l : list tm) : Prop := match l with [] => True | f :: r => in_term P f /\ every r end) fs
  end.
Definition in_clause (P : val -> Prop) (c : option clause) : Prop :=
  match c with Some c => Forall (fun l => Forall (in_term P) (snd l)) (literals c) | None => True end.

(** Names that cannot be taken for something else: not empty, without the beginnings that have a meaning, and the same
    name always with the same prefix; doubles that the %f format keeps apart from each other and from integers. *)
Definition begins (a s : str) : Prop := exists r, s = a ++ r.
Definition readable (q : str -> option str) (D : Z -> Prop) (v : val) : Prop :=
  match v with
  | VUri p n => n <> [] /\ ~ begins (S_ "-") n /\ ~ begins (S_ "?:") n /\ ~ begins (S_ "#:") n /\
                (p = Some (S_ "#") \/ (p = q n /\ distinct_pre (q n) = false))
  | VDbl d => D d
  | _ => True
  end.
Definition told_apart (fmt : Z -> str) (D : Z -> Prop) : Prop :=
  (forall d d', D d -> D d' -> fmt d = fmt d' -> d = d') /\ (forall d, D d -> In (ch 46) (fmt d)).

(** A buffer as the callers make it. *)
Definition sound (b : buf) : Prop := 0 < blen b /\ pos b <= blen b.

(** * Plain text *)

Definition capital (a : ascii) : bool := existsb (Ascii.eqb a) (S_ "ABCDEFGHIJKLMNOPQRSTUVWXYZ").
(** Symbols: a name is not empty, has no backslash and not too many quotes, the same name always has the same prefix; a name
    without a prefix does not look like a number or a variable; names of operators are not names of anything else. *)
Definition word (q : str -> option str) (p : option str) (n : str) : Prop :=
  n <> [] /\ ~ In BS n /\ quotes SQ n <= 90 /\ quotes DQ n <= 90 /\ short_pre p /\
  (p = Some (S_ "#") \/ (p = q n /\ distinct_pre (q n) = false)) /\
  (p = None -> forall a r, n = a :: r -> is_digit a = false /\ capital a = false) /\
  ~ In n (map S_ ["$sum"; "$product"; "$difference"; "$quotient"; "$less"; "-"; "/"]) /\
  (p <> None -> ~ In n (map S_ ["+"; "*"; "<"]) /\ n <> S_ "$emptystr").
Section Words.
Variables (fmt : Z -> str) (q : str -> option str) (D : Z -> Prop).
Definition word_leaf (v : val) : Prop :=
  match v with
  | VInt z => - 2 ^ 31 <= z < 2 ^ 31
  | VDbl d => D d /\ number (fmt d) /\ slen (fmt d) <= 40
  | VUri p n => word q p n
  | VVar i => 0 <= i < 1000
  | _ => False
  end.
(** A function symbol is not itself a compound term. *)
Fixpoint word_term (t : tm) : Prop :=
  match t with
  | Leaf v => word_leaf v
  | Rec fs =>
      match fs with
      | Leaf h :: args =>
          word_leaf h /\
          (fix every (l : list tm) : Prop := match l with [] => True | f :: r => word_term f /\ every r end) args
      | _ => False
      end
  end.
Definition word_atom (fs : list tm) : Prop :=
  match fs with Leaf (VUri p n) :: args => word q p n /\ Forall word_term args | _ => False end.
Definition word_clause (c : option clause) : Prop :=
  match c with
  | Some (Rule l) => Forall (fun p => match snd p with Rec fs => word_atom fs | Leaf _ => False end) l
  | Some (Fact fs) => word_atom fs
  | None => True
  end.
End Words.
