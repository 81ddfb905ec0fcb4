(** Reading a formula written in JSON: Parser/jsparse.c 1178-1566, 2069-2788 (the copy in
    Builtparser is the same).  Input: the JSON value as the yajl callbacks (jsparse.c 400-560) hand
    it over.  Output: the formula in the list form that the conversion to clauses takes
    (ClausModel.v).

    Left out: JSON objects ("@logic", "@role", "@context", "@list" and the key-value reading of
    objects), null, numbers with a fraction, "ask", included files and the printing of a converted
    formula.  Without "@context" the names of terms are left as they are (jsparse.c 3312).  The role
    of a formula comes from the object around it; it is a parameter here.  Lists are rewritten in
    place in the code; every list cell of the input is reached along one path only, so a function
    that builds a new list does the same.  After a syntax error the code goes on in places and
    returns NULL at the end because of parse_errflag; here the error ends the reading at once. *)
From Coq Require Import ZArith List String Ascii Bool DecimalString.
From Verif Require Import ClausModel.
Import ListNotations.
Open Scope string_scope.
Open Scope list_scope.

Inductive json := JBool (b : bool) | JInt (z : Z) | JStr (s : string) | JArr (l : list json).

(** [Crash]: the code follows a NULL pointer.  [Odd]: it goes on with a list that has NULL where the
    connective should be; not modelled further.  [Fuel]: the bound on the recursion depth, which is
    not in the code, was too small. *)
Inductive res (A : Type) := Done (a : A) | Err | Crash | Odd | Fuel.
Arguments Done {A}. Arguments Err {A}. Arguments Crash {A}. Arguments Odd {A}. Arguments Fuel {A}.
Definition bind {A B} (x : res A) (f : A -> res B) : res B :=
  match x with Done a => f a | Err => Err | Crash => Crash | Odd => Odd | Fuel => Fuel end.
Notation "x <- e ;; f" := (bind e (fun x => f)) (at level 61, e at next level, right associativity).
Notation "' p <- e ;; f" := (bind e (fun p => f)) (at level 61, p pattern, e at next level, right associativity).

(** wg_mkatom_int, dbmpool.c 692-719: a number is kept as its digits *)
Definition zdec (z : Z) : string := NilZero.string_of_int (Z.to_int z).
Definition s_tru := Sa (Sym TAnon "$true").
Definition s_fls := Sa (Sym TAnon "$false").
(** The list form of a JSON value: jsparse.c 400-560, constants 238-248.  Every string is an atom of
    URI type; the empty array is the atom $nil. *)
Fixpoint raw (j : json) : sx :=
  match j with
  | JBool b => if b then s_tru else s_fls
  | JInt z => Sa (Sym TOther (zdec z))
  | JStr s => Sa (Sym TUri s)
  | JArr [] => Sa (Sym TUri "$nil")
  | JArr l => Sl (map raw l)
  end.

(** wg_mkatom with type WG_ANONCONSTTYPE, dbmpool.c 595-626.  The connectives of the list form are
    the atoms of this type with these seven names (dbmpool.c 885-934; ClausModel.v). *)
Definition anon (s : string) : atom :=
  if String.eqb s "not" then Con CNot else if String.eqb s "and" then Con CAnd
  else if String.eqb s "or" then Con COr else if String.eqb s "imp" then Con CImp
  else if String.eqb s "eqv" then Con CEqv else if String.eqb s "all" then Con CAll
  else if String.eqb s "exists" then Con CEx else Sym TAnon s.
Definition is_uri (a : atom) : bool := match a with Sym TUri _ => true | _ => false end.
Definition is_anon (a : atom) : bool := match a with Con _ | Sym TAnon _ => true | _ => false end.
(** wg_atomstr1 returns NULL for an atom with the empty string (dbmpool.c 740-750) *)
Definition nul (a : atom) : bool := String.eqb (astr a) "".
Definition nul_atom (x : sx) : bool := match x with Sa a => nul a | Sl _ => false end.
Definition nul_uri (x : sx) : bool := match x with Sa a => is_uri a && nul a | Sl _ => false end.
(** wg_isatom (x) && !strcmp (s, wg_atomstr1 (x)) *)
Definition is_str (x : sx) (s : string) : bool := match x with Sa a => String.eqb (astr a) s | Sl _ => false end.
Definition is_one (x : sx) (l : list string) : bool := existsb (is_str x) l.
Definition first_char (s : string) : ascii := match s with String c _ => c | EmptyString => Ascii.zero end.
Definition stail (s : string) : string := match s with String _ r => r | EmptyString => "" end.
Definition neg_char (s : string) : bool := Ascii.eqb (first_char s) "-" || Ascii.eqb (first_char s) "~".
Definition mems (s : string) (l : list string) : bool := existsb (String.eqb s) l.

(** wr_is_json_freevar 2583-2601 *)
Definition qvar (s : string) : bool := String.prefix "?:" s && negb (String.eqb s "?:").
Definition cap (s : string) : bool :=
  let n := nat_of_ascii (first_char s) in Nat.leb 65 n && Nat.leb n 90.
(** wr_json_is_varlist 2441-2462; wr_is_json_freevar follows the string without a test *)
Fixpoint varlist_els (l : list sx) : res bool :=
  match l with
  | [] => Done true
  | Sa (Sym TUri s) :: r =>
      if String.eqb s "" then Crash else if qvar s || cap s then varlist_els r else Done false
  | _ :: _ => Done false
  end.
Definition is_varlist (x : sx) : res bool := match x with Sa _ => Done false | Sl l => varlist_els l end.
Definition names_of_list (x : sx) : list string :=
  match x with Sa _ => [] | Sl l => map (fun y => match y with Sa a => astr a | Sl _ => "" end) l end.

(** wr_json_is_connective 2482-2516 *)
Definition connectives : list string :=
  ["not"; "~"; "-"; "and"; "or"; "&"; "|"; "if"; "forall"; "exists"; "<=>"; "=>"; "<="; "<~>"; "~|"; "~&"; "@"].
Definition is_connective (x : sx) : bool :=
  match x with Sa a => (is_uri a || is_anon a) && mems (astr a) connectives | Sl _ => false end.
(** wr_json_is_eq_op 2519-2534 *)
Definition is_eq_op (x : sx) : bool :=
  match x with Sa a => is_uri a && mems (astr a) ["="; "~="; "-="; "!="] | Sl _ => false end.
(** wr_json_translate_connective 2536-2567; None: NULL *)
Definition translate (s : string) : option atom :=
  if mems s ["not"; "~"; "-"] then Some (Con CNot)
  else if mems s ["and"; "&"] then Some (Con CAnd)
  else if mems s ["or"; "|"] then Some (Con COr)
  else if String.eqb s "forall" then Some (Con CEx)
  else if String.eqb s "exists" then Some (Con CAll)
  else if String.eqb s "<=>" then Some (Con CEqv)
  else if mems s ["=>"; "<="] then Some (Con CImp)
  else if String.eqb s "<~>" then Some (Con CEqv)
  else if String.eqb s "~|" then Some (Con COr)
  else if String.eqb s "~&" then Some (Con CAnd)
  else if String.eqb s "@" then Some (Sym TAnon "@")
  else None.
(** wr_json_negtype_connective 2569-2581 *)
Definition negtype (s : string) : bool := mems s ["<~>"; "~|"; "~&"].
(** wr_json_equal_atoms 2603-2614; wr_json_really_equal_atoms 2616-2636 (for atoms with a string) *)
Definition equal_atoms (a b : atom) : bool := is_uri a && is_uri b && String.eqb (astr a) (astr b).
Definition really_equal (x : sx) (b : atom) : bool := is_str x (astr b).

(** wr_json_list_logconn 2410-2436 *)
Fixpoint list_logconn (found : option atom) (l : list sx) : res (option atom) :=
  match l with
  | [] => Done found
  | x :: r =>
      match x with
      | Sa a =>
          if is_connective x then
            match found with
            | None => list_logconn (Some a) r
            | Some f => if equal_atoms f a then list_logconn found r else Err
            end
          else list_logconn found r
      | Sl _ => list_logconn found r
      end
  end.

(** The atom case of wr_process_json_term 2122-2203.  [pos]: the place in the list; [bd]: the names
    in boundvars; [fv]: the names in freevars, newest first. *)
Definition type_uri := "http://www.w3.org/1999/02/22-rdf-syntax-ns#type".
Definition tatom (pos : nat) (bd : list string) (a : atom) (fv : list string) : res (sx * list string) :=
  if nul a then Done (Sa (Sym TAnon "$emptystr"), fv)
  else if negb (is_uri a) && negb (is_anon a) then
    if Nat.eqb pos 0 then Err else Done (Sa a, fv)
  else if is_uri a && qvar (astr a) then
    Done (Sa a, if mems (astr a) fv || mems (astr a) bd then fv else astr a :: fv)
  else if mems (astr a) bd then Done (Sa a, fv)
  else if String.eqb (astr a) "@type" then Done (Sa (Sym TUri type_uri), fv)
  else if is_uri a then
    if String.prefix "?:" (astr a) then Done (Sa a, fv) else Done (Sa (anon (astr a)), fv)
  else Done (Sa a, fv).

(** The loop over the parts of a list 2313-2318 and 2350-2354 *)
Fixpoint each (f : nat -> sx -> list string -> res (sx * list string)) (k : nat) (l : list sx) (fv : list string)
  : res (list sx * list string) :=
  match l with
  | [] => Done ([], fv)
  | x :: r =>
      '(y, fv1) <- f k x fv ;;
      '(ys, fv2) <- each f (S k) r fv1 ;;
      Done (y :: ys, fv2)
  end.
Definition atomeq := Sa (Sym TAnon "=").
Definition mk_not (x : sx) : sx := Sl [Sa (Con CNot); x].
(** wr_process_json_term 2069-2362 *)
Fixpoint term (n : nat) (lvl : bool) (pos : nat) (bd : list string) (x : sx) (fv : list string)
  : res (sx * list string) :=
  match n with
  | O => Fuel
  | S n =>
      match x with
      | Sa a => tatom pos bd a fv
      | Sl [] => Err
      | Sl (h :: r1) =>
          let two (u v : sx) := '(a1, fv1) <- term n false 1 bd u fv ;;
                                '(a2, fv2) <- term n false 2 bd v fv1 ;; Done (a1, a2, fv2) in
          let second s := match r1 with x1 :: _ => is_one x1 s | [] => false end in
          if lvl && match r1 with x1 :: _ => nul_atom x1 | [] => false end then Crash       (* 2215-2217 *)
          else if lvl && second ["="; "!="] then
            match r1 with
            | [x1; x2] =>
                '(a1, a2, fv') <- two h x2 ;;
                Done (if is_str x1 "=" then Sl [atomeq; a1; a2] else mk_not (Sl [atomeq; a1; a2]), fv')
            | _ => Err
            end
          else if negb lvl && second ["+"; "*"; "-"; "/"] then
            match r1 with
            | [x1; x2] => '(a1, a2, fv') <- two h x2 ;; Done (Sl [x1; a1; a2], fv')
            | _ => Err
            end
          else if lvl && nul_atom h then Crash                                               (* 2268-2272 *)
          else if lvl && is_one h ["="; "!="; "-="; "~="] then
            match r1 with
            | [x1; x2] =>
                '(a1, a2, fv') <- two x1 x2 ;;
                Done (if is_str h "=" then Sl [atomeq; a1; a2] else mk_not (Sl [atomeq; a1; a2]), fv')
            | _ => Err
            end
          else
            match h with
            | Sl _ => Err
            | Sa a =>
                if negb (is_uri a) && negb (is_anon a) then Err
                else if nul a then Crash                                                     (* 2306 *)
                else if lvl && neg_char (astr a) then
                  '(ys, fv') <- each (fun k y f => term n false k bd y f) 0 (h :: r1) fv ;;
                  Done (mk_not (Sl (Sa (Sym TUri (stail (astr a))) :: tl ys)), fv')
                else if is_one h ["exists"; "all"] then
                  match r1 with
                  | [] => Err
                  | v :: r2 =>
                      ok <- is_varlist v ;;
                      if negb ok then Err else
                      match r2 with
                      | [] => Err
                      | b :: r3 =>
                          '(b', fv') <- term n true 1 (names_of_list v ++ bd) b fv ;;
                          Done (Sl (h :: v :: b' :: r3), fv')
                      end
                  end
                else
                  '(ys, fv') <- each (fun k y f => term n false k bd y f) 0 (h :: r1) fv ;;
                  Done (Sl ys, fv')
            end
      end
  end.

(** wr_json_unflatten_logic 2731-2788; [f]: wr_process_json_formula_aux.  The result None is NULL
    without a syntax error: nothing but the connective was found. *)
Fixpoint unflatten (f : sx -> list string -> res (sx * list string)) (conn newconn : atom) (ispos isrev : bool)
  (l : list sx) (fv : list string) : res (option sx * list string) :=
  let one x fv := '(y, fv') <- f x fv ;; Done (Some y, fv') in
  match l with
  | [] => Done (None, fv)
  | x :: rst =>
      if is_uri conn && nul_uri x then Crash                                                 (* 2612 *)
      else if match x with Sa a => equal_atoms a conn | Sl _ => false end then
        unflatten f conn newconn ispos isrev rst fv
      else
        match rst with
        | [] => one x fv
        | _ =>
            '(a1r, fv1) <- unflatten f conn newconn ispos isrev rst fv ;;
            if nul_atom x then Crash                                                         (* 2631 *)
            else if really_equal x conn then Done (a1r, fv1)
            else
              match a1r with
              | None => one x fv1
              | Some p =>
                  '(q, fv2) <- f x fv1 ;;
                  Done (Some
                    (if ispos then
                       if isrev then
                         if really_equal q newconn then p else Sl [Sa newconn; q; p]
                       else if really_equal p newconn then q else Sl [Sa newconn; p; q]
                     else mk_not (if really_equal p newconn then q else Sl [Sa newconn; p; q])), fv2)
              end
        end
  end.

(** The loop of wr_json_process_if_then 2647-2663 *)
Fixpoint if_parts (f : sx -> list string -> res (sx * list string)) (incond : bool) (l : list sx) (fv : list string)
  : res (bool * list sx * list sx * list string) :=
  match l with
  | [] => Done (incond, [], [], fv)
  | x :: r =>
      if nul_uri x then Crash
      else if match x with Sa a => is_uri a && String.eqb (astr a) "then" | Sl _ => false end then
        if_parts f false r fv
      else
        '(y, fv1) <- f x fv ;;
        '(inc, cs, qs, fv2) <- if_parts f incond r fv1 ;;
        Done (if incond then (inc, y :: cs, qs, fv2) else (inc, cs, y :: qs, fv2))
  end.
(** wr_json_process_if_then 2664-2689: several parts are joined by unflatten, which reads each of
    them once more *)
Definition join (f : sx -> list string -> res (sx * list string)) (c : conn) (l : list sx) (fv : list string)
  : res (sx * list string) :=
  match l with
  | [x] => Done (x, fv)
  | _ =>
      '(r, fv') <- unflatten f (Con c) (Con c) true false (Sa (Con c) :: l) fv ;;
      match r with Some y => Done (y, fv') | None => Err end
  end.
Definition if_then (f : sx -> list string -> res (sx * list string)) (l : list sx) (fv : list string)
  : res (sx * list string) :=
  '(inc, cs, qs, fv1) <- if_parts f true l fv ;;
  if inc then Err else
  match cs, qs with
  | [], _ | _, [] => Err
  | _, _ =>
      '(c, fv2) <- join f CAnd cs fv1 ;;
      '(q, fv3) <- join f COr qs fv2 ;;
      Done (Sl [Sa (Con CImp); c; q], fv3)
  end.

(** wr_process_json_formula_aux 1352-1566 *)
Fixpoint aux (n : nat) (bd : list string) (x : sx) (fv : list string) : res (sx * list string) :=
  match n with
  | O => Fuel
  | S n =>
      match x with
      | Sa a =>
          if is_uri a && negb (nul a) && neg_char (astr a) then
            if Ascii.eqb (first_char (stail (astr a))) "-" || Ascii.eqb (first_char (astr a)) "~" then Err
            else aux n bd (Sl [Sa (Con CNot); Sa (Sym TUri (stail (astr a)))]) fv
          else term n true 0 bd x fv
      | Sl [] => Err
      | Sl (h :: r1) =>
          let quant c :=
            match r1 with
            | [] => Err
            | v :: r2 =>
                ok <- is_varlist v ;;
                if negb ok then Err else
                match r2 with
                | [b] => '(b', fv') <- aux n (names_of_list v ++ bd) b fv ;; Done (Sl [Sa (Con c); v; b'], fv')
                | _ => Err
                end
            end in
          lc <- list_logconn None (h :: r1) ;;
          if nul_atom h then Crash                                                           (* 1438 *)
          else if is_str h "and" && match r1 with [] => true | _ => false end then Done (s_fls, fv)
          else if is_str h "or" && match r1 with [] => true | _ => false end then Done (s_tru, fv)
          else if match r1 with x1 :: _ => nul_uri x1 | [] => false end then Crash           (* 1442, 2525 *)
          else if match r1 with x1 :: _ :: _ => is_eq_op x1 | _ => false end then
            match r1 with
            | x1 :: x2 :: _ =>
                '(a1, fv1) <- term n false 1 bd h fv ;;
                '(a2, fv2) <- term n false 2 bd x2 fv1 ;;
                Done (if is_str x1 "=" then Sl [x1; a1; a2] else mk_not (Sl [atomeq; a1; a2]), fv2)
            | _ => Err
            end
          else if is_one h ["not"; "-"; "~"] then
            match r1 with
            | [x1] => '(y, fv') <- aux n bd x1 fv ;; Done (mk_not y, fv')
            | _ => Err
            end
          else if is_str h "exists" then quant CEx
          else if is_str h "forall" then quant CAll
          else if is_str h "if" then if_then (fun y f => aux n bd y f) r1 fv
          else
            match lc with
            | Some conn =>
                match translate (astr conn) with
                | None => Odd
                | Some newconn =>
                    '(r, fv') <- unflatten (fun y f => aux n bd y f) conn newconn (negb (negtype (astr conn)))
                                   (String.eqb (astr conn) "<=") (List.rev (h :: r1)) fv ;;
                    match r with Some y => Done (y, fv') | None => Odd end
                end
            | None =>
                match h with
                | Sl _ => aux n bd (Sl (Sa (Sym TUri "or") :: h :: r1)) fv
                | Sa _ => term n true 0 bd x fv
                end
            end
      end
  end.

(** wr_process_json_formula 1178-1238, for a formula of the list of formulas (parse_top_level); the
    role is "axiom" (also for no role, "assumption" and "hypothesis"), "conjecture",
    "negated_conjecture" or "question".  The conjecture is negated after that, in
    wr_preprocess_tptp_fof_clause, dbparse.c 933-938. *)
Inductive role := RAx | RConj | RNegConj | RQuest.
Definition close (fv : list string) (x : sx) : sx :=
  match fv with [] => x | _ => Sl [Sa (Con CAll); Sl (map (fun s => Sa (Sym TUri s)) fv); x] end.
Definition read (n : nat) (r : role) (j : json) : res sx :=
  '(x, fv0) <- aux n [] (raw j) [] ;;
  let fv := rev fv0 in
  Done (match r with
        | RAx | RNegConj => close fv x
        | RConj => mk_not (close fv x)
        | RQuest =>
            match fv with
            | [] => mk_not x
            | _ => close fv (Sl [Sa (Con CImp); x; Sl (Sa (Sym TUri "$ans") :: map (fun s => Sa (Sym TUri s)) fv)])
            end
        end).
(** The loop over the formulas of a file, wr_preprocess_json_clauselist 859-910: "true" is dropped,
    an empty array, and a number in place of a formula, are errors *)
Fixpoint read_all (n : nat) (l : list json) : res (list sx) :=
  match l with
  | [] => Done []
  | JBool true :: r => read_all n r
  | JInt _ :: _ => Err
  | JArr [] :: _ => Err
  | j :: r =>
      x <- read n RAx j ;;
      xs <- read_all n r ;;
      Done (x :: xs)
  end.

(** The symbol that is stored for an atom: wr_parse_primitive, dbparse.c 1716-1719, 1747-1750,
    1774-1797.  A symbol is a name with an optional prefix; two atoms with the same symbol are the
    same constant, function or predicate.  A number is kept as an int (1689-1692): strtol gives a
    64-bit long, and the assignment to an int keeps its low 32 bits. *)
Inductive key := KName (pre : option string) (s : string) | KInt (z : Z) | KNone.
(** wg_parser_should_quote, dbparse.c 1839-1867 *)
Definition quote_char (c : ascii) : bool :=
  let n := nat_of_ascii c in
  if Nat.eqb n 36 || Nat.eqb n 95 then false
  else Nat.ltb n 48 || (Nat.ltb 57 n && Nat.ltb n 64) || (Nat.ltb 90 n && Nat.ltb n 97) || Nat.ltb 122 n.
Fixpoint has_quote (s : string) : bool :=
  match s with EmptyString => false | String c r => quote_char c || has_quote r end.
Definition should_quote (s : string) : bool := Ascii.eqb (first_char s) "0" || has_quote s.
Definition w32 (z : Z) : Z := ((z + 2147483648) mod 4294967296 - 2147483648)%Z.
Definition one_op (s : string) : bool := mems s ["="; "-"; "+"; "*"; "/"].
(** the heads renamed by wr_parse_term, dbparse.c 1583-1592 *)
Definition renamed (s : string) : option string :=
  if String.eqb s "$sum" then Some "+"
  else if String.eqb s "$difference" then Some "-"
  else if String.eqb s "$product" then Some "*"
  else if String.eqb s "$quotient" then Some "/"
  else None.
Definition stored_name (head : bool) (a : atom) : key :=
  match a with
  | Con _ => KNone
  | Sym TUri s => KName None s
  | Sym TAnon s =>
      if String.prefix "#:" s then KName (Some "#") (stail (stail s))
      else if head && one_op s then KName None s
      else if cap s || should_quote s then KName (Some "c") s else KName None s
  | Sym TOther s =>
      match NilZero.int_of_string s with Some d => KInt (w32 (Z.of_int d)) | None => KNone end
  | Sym TVar _ => KNone
  end.
Definition stored (head : bool) (a : atom) : key :=
  match (if head then renamed (astr a) else None) with
  | Some op => KName None op
  | None => stored_name head a
  end.
