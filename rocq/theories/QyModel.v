(** Tables with T-tree indexes, and queries over them.
    Code: Db/dbdata.c 161-171 (wg_create_record), 187-236 (wg_create_raw_record), 247-331
    (wg_delete_record), 655-812 (wg_set_field), 834-960 (wg_set_new_field);
    Db/dbindex.c 1371-1425 (create_ttree_index), 1758-1830 (add_index_template), 1959-1992
    (wg_match_template), 2048-2265 (wg_create_multi_index), 2274-2370 (wg_drop_index), 2616-2980 (updates);
    Db/dbquery.c 137-275 (choice of the index), 281-333 (check_arglist), 350-437 (prepare_params),
    445-639 (find_ttree_bounds), 668-953 (internal_build_query), 986-1106 (wg_fetch).
    With USE_INDEX_TEMPLATE, without CHECK, and without QUICK_REASONER: the program is compiled
    with it (dbdata.c 84), which QkModel describes.
    Simplifications:
    - a field holds a value of any type [K]; [cmp] is WG_COMPARE, [null] the word 0, [same] the
      equality of words.  Values that are links to records are left out, so no backlinks;
    - the record area is the list of its records in the order of the scan, each with its offset;
      a new record may take any place in it; no record is of the special kind except match records,
      which are kept in the header of their index instead;
    - only T-tree indexes: hash indexes are not used by queries;
    - malloc, list cells, headers and templates are always allocated; a T-tree node gets the next
      of the offsets [al], 0 for a failure;
    - [None] is the result of a read through offset 0 or outside of a node, or of too little fuel. *)
From Coq Require Import List ZArith Bool.
From Verif Require Import TtModel.
Import ListNotations.
Open Scope Z_scope.

(** dballoc.h 265 *)
Definition max_field : nat := 127.
(** dbquery.c 57 *)
Definition page_size : nat := 63.
(** WG_COND_..., dbapi.h *)
Inductive cond := CEq | CNe | CLt | CGt | CLe | CGe.
(** A conversion to int: the index_id of struct column_score, dbquery.c 143 *)
Definition to_int (z : Z) : Z := (z + 2147483648) mod 4294967296 - 2147483648.

Section DB.
Variable K : Type.
Variable cmp : K -> K -> comparison.
Variable null : K.
Variable same : K -> K -> bool.

(** An index header with its match record, trimmed (1790); [None] in it is WG_VARTYPE *)
Record header := { hid : Z; hcol : nat; htmpl : option (list (option K)); hix : ix K }.
(** The record area, the master list of indexes, index_table and index_template_table *)
Record db := { recs : list (Z * list K); hdrs : list header; table : nat -> list Z; ttable : nat -> list Z }.

Definition fields (rs : list (Z * list K)) (r : Z) : list K :=
  match List.find (fun p => fst p =? r) rs with Some p => snd p | None => [] end.
(** wg_get_field *)
Definition fld (d : db) (c : nat) (r : Z) : K := nth c (fields (recs d) r) null.
Definition hget (i : Z) (l : list header) : option header := List.find (fun h => hid h =? i) l.
Definition with_ix (x : ix K) (h : header) : header := {| hid := hid h; hcol := hcol h; htmpl := htmpl h; hix := x |}.
Definition set_ix (d : db) (i : Z) (x : ix K) : db :=
  {| recs := recs d; hdrs := map (fun h => if hid h =? i then with_ix x h else h) (hdrs d);
     table := table d; ttable := ttable d |}.
Definition with_recs (rs : list (Z * list K)) (d : db) : db :=
  {| recs := rs; hdrs := hdrs d; table := table d; ttable := ttable d |}.

(** wg_match_template 1959-1992 *)
Fixpoint match_tmpl (t : list (option K)) (f : list K) : bool :=
  match t, f with
  | [], _ => true
  | _ :: _, [] => false
  | None :: t, _ :: f => match_tmpl t f
  | Some e :: t, v :: f => is_eq (cmp e v) && match_tmpl t f
  end.
(** MATCH_TEMPLATE, dbindex.h 62-64 *)
Definition matches (h : header) (f : list K) : bool :=
  match htmpl h with Some t => match_tmpl t f | None => true end.
(** The first fixed column *)
Fixpoint first_fixed (t : list (option K)) : option nat :=
  match t with [] => None | Some _ :: _ => Some O | None :: t => option_map S (first_fixed t) end.
Fixpoint fixed_count (t : list (option K)) : nat :=
  match t with [] => O | Some _ :: t => S (fixed_count t) | None :: t => fixed_count t end.

(* ---- updating the indexes ---- *)
Inductive act := Add | Del.
(** A database and the number of nodes allocated *)
Definition st : Type := db * nat.
(** INDEX_ADD_ROW 2616-2641, INDEX_REMOVE_ROW 2643-2668 *)
Definition act_row (a : act) (al : nat -> Z) (r : Z) (h : header) (s : st) : option (st * Z) :=
  let '(d, n) := s in
  match a with
  | Add => match add_row K cmp (fld d (hcol h)) (hix h) r (al n) with
           | None => None
           | Some (x, e) => Some ((set_ix d (hid h) x, S n), if e =? 0 then 0 else -2)
           end
  | Del => match remove_row K cmp (fld d (hcol h)) (hix h) r with
           | None => None
           | Some (x, e) => Some ((set_ix d (hid h) x, n), if e <? -2 then -2 else 0)
           end
  end.
(** A walk over a list of indexes, acting on those for which [which] says so *)
Fixpoint each (a : act) (al : nat -> Z) (r : Z) (which : header -> option bool) (l : list Z) (s : st) : option (st * Z) :=
  match l with
  | [] => Some (s, 0)
  | i :: l =>
      match hget i (hdrs (fst s)) with
      | None => None
      | Some h =>
          match which h with
          | None => None
          | Some false => each a al r which l s
          | Some true =>
              match act_row a al r h s with
              | None => None
              | Some (s, e) => if e =? 0 then each a al r which l s else Some (s, e)
              end
          end
      end
  end.
Definition next_if (o : option (st * Z)) (k : st -> option (st * Z)) : option (st * Z) :=
  match o with
  | None => None
  | Some (s, e) => if e =? 0 then k s else Some (s, e)
  end.
(** wg_index_add_field 2677-2733, wg_index_del_field 2840-2897 *)
Definition index_field (a : act) (al : nat -> Z) (r : Z) (c : nat) (s : st) : option (st * Z) :=
  let f := fields (recs (fst s)) r in
  let which h := Some (Nat.ltb (hcol h) (length f) && matches h f) in
  next_if (each a al r which (table (fst s) c) s) (fun s => each a al r which (ttable (fst s) c) s).
(** 2787-2815, 2949-2976: the template matches, and this is its first fixed column *)
Definition tmpl_turn (i n : nat) (f : list K) (h : header) : option bool :=
  match htmpl h with
  | None => None
  | Some t => Some (Nat.leb (length t) n && match_tmpl t f &&
                    match first_fixed t with Some j => Nat.eqb j i | None => false end && Nat.ltb (hcol h) n)
  end.
(** wg_index_add_rec 2742-2831, wg_index_del_rec 2904-2981; [k] columns left from [i] on *)
Fixpoint index_cols (a : act) (al : nat -> Z) (r : Z) (n : nat) (f : list K) (k i : nat) (s : st) : option (st * Z) :=
  match k with
  | O => Some (s, 0)
  | S k =>
      next_if (each a al r (fun h => Some (Nat.eqb (hcol h) i && matches h f)) (table (fst s) i) s)
        (fun s => next_if (each a al r (tmpl_turn i n f) (ttable (fst s) i) s)
           (fun s => index_cols a al r n f k (S i) s))
  end.
Definition index_rec (a : act) (al : nat -> Z) (r : Z) (s : st) : option (st * Z) :=
  let f := fields (recs (fst s)) r in
  let n := Nat.min (length f) (S max_field) in
  index_cols a al r n f n 0 s.

(* ---- records ---- *)
(** wg_create_raw_record 187-236: a record of nulls at offset [r], at place [p] of the scan *)
Definition create_raw (d : db) (p : nat) (r : Z) (len : nat) : db :=
  with_recs (firstn p (recs d) ++ (r, repeat null len) :: skipn p (recs d)) d.
(** wg_create_record 161-171; the offset of the record, or 0 *)
Definition create_record (d : db) (p : nat) (r : Z) (len : nat) (al : nat -> Z) : option (db * Z) :=
  match index_rec Add al r (create_raw d p r len, O) with
  | None => None
  | Some ((d, _), e) => Some (d, if e <? -1 then 0 else r)
  end.
(** wg_delete_record 247-331 *)
Definition delete_record (d : db) (r : Z) : option (db * Z) :=
  match index_rec Del (fun _ => 0) r (d, O) with
  | None => None
  | Some ((d, _), e) =>
      if e <? -1 then Some (d, -3)
      else Some (with_recs (filter (fun p => negb (fst p =? r)) (recs d)) d, 0)
  end.
(** Writing a field *)
Fixpoint put_nth (c : nat) (v : K) (f : list K) : list K :=
  match f, c with
  | [], _ => []
  | _ :: f, O => v :: f
  | x :: f, S c => x :: put_nth c v f
  end.
Definition write (d : db) (r : Z) (c : nat) (v : K) : db :=
  with_recs (map (fun p => if fst p =? r then (fst p, put_nth c v (snd p)) else p) (recs d)) d.
(** wg_set_field 655-812 *)
Definition set_field (d : db) (r : Z) (c : nat) (v : K) (al : nat -> Z) : option (db * Z) :=
  if same (fld d c r) v then Some (d, 0)
  else if Nat.leb c max_field then
    match index_field Del al r c (d, O) with
    | None => None
    | Some ((d, n), e) =>
        if e <? -1 then Some (d, -3)
        else match index_field Add al r c (write d r c v, n) with
             | None => None
             | Some ((d, _), e) => Some (d, if e <? -1 then -3 else 0)
             end
    end
  else Some (write d r c v, 0).
(** wg_set_new_field 834-960 *)
Definition set_new_field (s : st) (r : Z) (c : nat) (v : K) (al : nat -> Z) : option (st * Z) :=
  let s := (write (fst s) r c v, snd s) in
  if Nat.leb c max_field then
    match index_field Add al r c s with
    | None => None
    | Some (s, e) => Some (s, if e <? -1 then -3 else 0)
    end
  else Some (s, 0).
(** The use of wg_create_raw_record its comment asks for (173-186): every field is then set once *)
Fixpoint fill (s : st) (r : Z) (c : nat) (vs : list K) (al : nat -> Z) : option (st * Z) :=
  match vs with
  | [] => Some (s, 0)
  | v :: vs => next_if (set_new_field s r c v al) (fun s => fill s r (S c) vs al)
  end.
Definition create_filled (d : db) (p : nat) (r : Z) (vs : list K) (al : nat -> Z) : option (db * Z) :=
  match fill (create_raw d p r (length vs), O) r 0 vs al with
  | None => None
  | Some ((d, _), e) => Some (d, e)
  end.

(* ---- creating and dropping an index ---- *)
(** 1404-1418: the result of ttree_add_row is not looked at *)
Fixpoint build_ix (d : db) (al : nat -> Z) (h : header) (l : list (Z * list K)) (n : nat) (x : ix K) : option (ix K) :=
  match l with
  | [] => Some x
  | (r, f) :: l =>
      if Nat.ltb (hcol h) (length f) && matches h f then
        match add_row K cmp (fld d (hcol h)) x r (al n) with
        | None => None
        | Some (x, _) => build_ix d al h l (S n) x
        end
      else build_ix d al h l n x
  end.
(** 1790: trailing wildcards *)
Fixpoint trim (t : list (option K)) : list (option K) :=
  match t with
  | [] => []
  | e :: t => match e, trim t with None, [] => [] | _, u => e :: u end
  end.
(** 1799-1820, 2128-2143: the same template *)
Fixpoint tmpl_same (t u : list (option K)) : bool :=
  match t, u with
  | [], [] => true
  | None :: t, None :: u => tmpl_same t u
  | Some a :: t, Some b :: u => is_eq (cmp a b) && tmpl_same t u
  | _, _ => false
  end.
Definition otmpl_same (t u : option (list (option K))) : bool :=
  match t, u with Some t, Some u => tmpl_same t u | None, None => true | _, _ => false end.
Definition weight_of (t : option (list (option K))) : nat := match t with Some t => fixed_count t | None => O end.
(** 2115-2165: the place in the chain of the column; [Some None] if there is an identical index *)
Fixpoint insert_at (hs : list header) (t : option (list (option K))) (i : Z) (l : list Z) : option (option (list Z)) :=
  match l with
  | [] => Some (Some [i])
  | j :: l' =>
      match hget j hs with
      | None => None
      | Some h =>
          if otmpl_same t (htmpl h) then Some None
          else if match htmpl h with
                  | Some u => Nat.ltb (fixed_count u) (weight_of t)
                  | None => Nat.ltb O (weight_of t)
                  end then Some (Some (i :: l))
          else match insert_at hs t i l' with
               | Some (Some m) => Some (Some (j :: m))
               | o => o
               end
      end
  end.
(** 2223-2237 *)
Fixpoint add_ttable (t : list (option K)) (i : Z) (c : nat) (tt : nat -> list Z) : nat -> list Z :=
  match t with
  | [] => tt
  | None :: t => add_ttable t i (S c) tt
  | Some _ :: t => add_ttable t i (S c) (fun x => if Nat.eqb x c then i :: tt c else tt x)
  end.
(** 2083-2113, 1772-1789 *)
Definition bad_index (c : nat) (t : option (list (option K))) : bool :=
  Nat.ltb max_field c ||
  match t with
  | None => false
  | Some t => Nat.eqb (length t) 0 || Nat.ltb (S max_field) (length t) ||
              match nth c t None with Some _ => true | None => false end || Nat.eqb (fixed_count t) 0
  end.
(** wg_create_multi_index 2048-2265 for a T-tree index; [i] the offset of the header, [root] of the first node *)
Definition create_index (d : db) (c : nat) (t : option (list (option K))) (i root : Z) (al : nat -> Z) : option (db * Z) :=
  if bad_index c t then Some (d, -1)
  else
    let t := option_map trim t in
    match insert_at (hdrs d) t i (table d c) with
    | None => None
    | Some None => Some (d, -1)
    | Some (Some l) =>
        let h := {| hid := i; hcol := c; htmpl := t; hix := new_index K root |} in
        match build_ix d al h (recs d) 0 (hix h) with
        | None => None
        | Some x =>
            Some ({| recs := recs d; hdrs := with_ix x h :: hdrs d;
                     table := fun y => if Nat.eqb y c then l else table d y;
                     ttable := match t with Some t => add_ttable t i 0 (ttable d) | None => ttable d end |}, 0)
        end
    end.
(** wg_drop_index 2274-2370 *)
Fixpoint del_first (i : Z) (l : list Z) : list Z :=
  match l with [] => [] | j :: l => if j =? i then l else j :: del_first i l end.
Fixpoint del_ttable (t : list (option K)) (i : Z) (c : nat) (tt : nat -> list Z) : nat -> list Z :=
  match t with
  | [] => tt
  | None :: t => del_ttable t i (S c) tt
  | Some _ :: t => del_ttable t i (S c) (fun x => if Nat.eqb x c then del_first i (tt c) else tt x)
  end.
Definition drop_index (d : db) (i : Z) : db * Z :=
  match hget i (hdrs d) with
  | None => (d, -1)
  | Some h =>
      ({| recs := recs d; hdrs := filter (fun g => negb (hid g =? i)) (hdrs d);
          table := fun y => if Nat.eqb y (hcol h) then del_first i (table d y) else table d y;
          ttable := match htmpl h with Some t => del_ttable t i 0 (ttable d) | None => ttable d end |}, 0)
  end.

(* ---- queries ---- *)
(** wg_query_arg *)
Record arg := { acol : nat; acond : cond; aval : K }.
(** 288-330: one condition *)
Definition holds (c : cond) (o : comparison) : bool :=
  match c with
  | CEq => is_eq o
  | CLt => is_lt o
  | CGt => is_gt o
  | CLe => negb (is_gt o)
  | CGe => negb (is_lt o)
  | CNe => negb (is_eq o)
  end.
(** check_arglist 281-333 *)
Definition check_args (d : db) (r : Z) (args : list arg) : bool :=
  let f := fields (recs d) r in
  forallb (fun a => Nat.ltb (acol a) (length f) && holds (acond a) (cmp (fld d (acol a) r) (aval a))) args.
(** prepare_params 350-437 *)
Fixpoint rec_args (i : nat) (m : list (option K)) : list arg :=
  match m with
  | [] => []
  | None :: m => rec_args (S i) m
  | Some v :: m => {| acol := i; acond := CEq; aval := v |} :: rec_args (S i) m
  end.
Definition all_args (m : option (list (option K))) (args : list arg) : list arg :=
  args ++ match m with Some m => rec_args 0 m | None => [] end.

(** most_restricting_column 137-275 *)
Definition null_penalty (v : K) : Z := if same v null then -1 else 0.
Definition base_score (a : arg) : Z :=
  match acond a with CEq => 5 + null_penalty (aval a) | CNe => 0 | _ => 2 end.
Fixpoint add_score (a : arg) (sc : list (nat * Z)) : list (nat * Z) :=
  match sc with
  | [] => [(acol a, base_score a)]
  | (c, s) :: sc => if Nat.eqb c (acol a) then (c, s + base_score a) :: sc else (c, s) :: add_score a sc
  end.
Definition scores (args : list arg) : list (nat * Z) := fold_left (fun sc a => add_score a sc) args [].
(** 222-252: the score with the template, and if the index can be used *)
Definition fits_args (args : list arg) (j : nat) (e : K) : bool :=
  forallb (fun a => negb (Nat.eqb (acol a) j) ||
                    (match acond a with CEq => true | _ => false end && is_eq (cmp e (aval a)))) args
  && existsb (fun a => Nat.eqb (acol a) j) args.
Fixpoint tmpl_score (args : list arg) (t : list (option K)) (j : nat) (s : Z) : Z * bool :=
  match t with
  | [] => (s, true)
  | None :: t => tmpl_score args t (S j) s
  | Some e :: t => if fits_args args j e then tmpl_score args t (S j) (s + 5 + null_penalty e) else (s, false)
  end.
(** 203-260 *)
Fixpoint pick_index (hs : list header) (args : list arg) (l : list Z) (s : Z) : option (Z * Z) :=
  match l with
  | [] => Some (0, 0)
  | i :: l =>
      match hget i hs with
      | None => None
      | Some h =>
          match htmpl h with
          | None => Some (to_int i, s)
          | Some t => let '(s, ok) := tmpl_score args t 0 s in
                      if ok then Some (to_int i, s) else pick_index hs args l s
          end
      end
  end.
(** 196-267; the column and the index *)
Fixpoint best (d : db) (args : list arg) (sc : list (nat * Z)) (top : Z) (col : nat) (id : Z) : option (nat * Z) :=
  match sc with
  | [] => Some (col, id)
  | (c, s) :: sc =>
      match (if Nat.leb c max_field then pick_index (hdrs d) args (table d c) s else Some (0, 0)) with
      | None => None
      | Some (i, s) => let s := if i =? 0 then 0 else s in
                       if top <? s then best d args sc s c i else best d args sc top col id
      end
  end.

(** wg_search_tnode_first 1326-1342, wg_search_tnode_last 1349-1364; -1 for none *)
Fixpoint slot_first (key : Z -> K) (k : K) (l : list Z) (i : Z) : Z :=
  match l with
  | [] => -1
  | e :: l => if is_lt (cmp (key e) k) then slot_first key k l (i + 1) else i
  end.
Fixpoint slot_last (key : Z -> K) (k : K) (l : list Z) (i : Z) (res : Z) : Z :=
  match l with
  | [] => res
  | e :: l => slot_last key k l (i + 1) (if is_gt (cmp (key e) k) then res else i)
  end.
Definition node_at (x : ix K) (o : Z) : option (cell K) :=
  match find K o (tr K x) with Some (N _ c _ _ _ _) => Some c | _ => None end.
Definition size (c : cell K) : Z := Z.of_nat (length (els K c)).
(** 459-525: the start of the range; [Some None] for "node was bad" *)
Definition start_of (x : ix K) (key : Z -> K) (b : option K) (incl : bool) : option (option (Z * Z)) :=
  match b with
  | None => Some (Some (minp K x, 0))
  | Some k =>
      match (if incl then leftmost K cmp k (tr K x) None else rightmost K cmp k (tr K x) None) with
      | None => None
      | Some (Bounding, o) =>
          match node_at x o with
          | None => None
          | Some c =>
              if incl then
                let s := slot_first key k (els K c) 0 in
                if s =? -1 then Some None else Some (Some (o, s))
              else
                let s := slot_last key k (els K c) 0 (-1) in
                if s =? -1 then Some None
                else if size c <=? s + 1 then Some (Some (succ K x o, 0)) else Some (Some (o, s + 1))
          end
      | Some (DeadRight, o) => Some (Some (succ K x o, 0))
      | Some (DeadLeft, o) => Some (Some (o, 0))
      end
  end.
(** The last slot of a node; -1 at offset 0 *)
Definition last_slot (x : ix K) (o : Z) : option (option (Z * Z)) :=
  if o =? 0 then Some (Some (0, -1))
  else match node_at x o with None => None | Some c => Some (Some (o, size c - 1)) end.
(** 529-602: the end of the range *)
Definition end_of (x : ix K) (key : Z -> K) (b : option K) (incl : bool) : option (option (Z * Z)) :=
  match b with
  | None => last_slot x (maxp K x)
  | Some k =>
      match (if incl then rightmost K cmp k (tr K x) None else leftmost K cmp k (tr K x) None) with
      | None => None
      | Some (Bounding, o) =>
          match node_at x o with
          | None => None
          | Some c =>
              if incl then
                let s := slot_last key k (els K c) 0 (-1) in
                if s =? -1 then Some None else Some (Some (o, s))
              else
                let s := slot_first key k (els K c) 0 in
                if s =? -1 then Some None
                else if s - 1 <? 0 then last_slot x (pred K x o) else Some (Some (o, s - 1))
          end
      | Some (DeadRight, o) => last_slot x o
      | Some (DeadLeft, o) => last_slot x (pred K x o)
      end
  end.
(** 604-633: empty ranges *)
Definition settle (x : ix K) (co cs eo es : Z) : Z * Z * Z * Z :=
  if co =? 0 then (co, cs, 0, es)
  else if (eo =? co) && (es <? cs) then (0, cs, 0, es)
  else if eo =? 0 then (0, cs, eo, es)
  else if eo =? pred K x co then (0, cs, 0, es)
  else (co, cs, eo, es).

(** 743-810: the bounds; the last flag is for a condition the bounds do not cover *)
Record range := { sb : option K; sincl : bool; eb : option K; eincl : bool; rest : bool }.
Definition start_if (ok : comparison -> bool) (v : K) (incl : bool) (g : range) : range :=
  if match sb g with None => true | Some b => ok (cmp b v) end
  then {| sb := Some v; sincl := incl; eb := eb g; eincl := eincl g; rest := rest g |} else g.
Definition end_if (ok : comparison -> bool) (v : K) (incl : bool) (g : range) : range :=
  if match eb g with None => true | Some b => ok (cmp b v) end
  then {| sb := sb g; sincl := sincl g; eb := Some v; eincl := incl; rest := rest g |} else g.
Definition narrow (g : range) (a : arg) : range :=
  let v := aval a in
  match acond a with
  | CEq => end_if is_gt v true (start_if is_lt v true g)
  | CLt => end_if (fun o => negb (is_lt o)) v false g
  | CGt => start_if (fun o => negb (is_gt o)) v false g
  | CLe => end_if is_gt v true g
  | CGe => start_if is_lt v true g
  | CNe => {| sb := sb g; sincl := sincl g; eb := eb g; eincl := eincl g; rest := true |}
  end.
Definition no_range : range := {| sb := None; sincl := false; eb := None; eincl := false; rest := false |}.

(** wg_query: a scan at a record, a walk in an index from (co, cs) to (eo, es), or fetched pages *)
Inductive query :=
| Qscan (cur : Z) (args : list arg)
| Qtree (id co cs eo es : Z) (args : list arg)
| Qpre (pages : list (list Z)) (pidx : nat).
(** wg_get_first_record, wg_get_next_record *)
Fixpoint after (r : Z) (l : list (Z * list K)) : Z :=
  match l with
  | [] => 0
  | p :: l => if fst p =? r then match l with q :: _ => fst q | [] => 0 end else after r l
  end.
Definition first_rec (l : list (Z * list K)) : Z := match l with q :: _ => fst q | [] => 0 end.
Definition slot_at (c : cell K) (s : Z) : option Z := if s <? 0 then None else nth_error (els K c) (Z.to_nat s).
(** wg_fetch 986-1106; the direction is always 1 *)
Fixpoint fetch (n : nat) (d : db) (q : query) : option (option Z * query) :=
  match n with
  | O => None
  | S n =>
      match q with
      | Qscan cur args =>
          if cur =? 0 then Some (None, q)
          else
            let q' := Qscan (after cur (recs d)) args in
            if check_args d cur args then Some (Some cur, q') else fetch n d q'
      | Qtree id co cs eo es args =>
          if co =? 0 then Some (None, q)
          else
            match hget id (hdrs d) with
            | None => None
            | Some h =>
                match node_at (hix h) co with
                | None => None
                | Some c =>
                    match slot_at c cs with
                    | None => None
                    | Some r =>
                        let '(co', cs') :=
                          if (co =? eo) && (cs =? es) then (0, cs)
                          else if size c <=? cs + 1 then (succ K (hix h) co, 0)
                          else (co, cs + 1) in
                        let q' := Qtree id co' cs' eo es args in
                        if check_args d r args then Some (Some r, q') else fetch n d q'
                    end
                end
            end
      | Qpre pages i =>
          match pages with
          | [] => Some (None, q)
          | p :: ps =>
              let o := nth i p 0 in            (* the page is filled up with zeros, 925 *)
              if o =? 0 then Some (None, Qpre [] (S i))
              else Some (Some o, if Nat.leb page_size (S i) then Qpre ps 0 else Qpre pages (S i))
          end
      end
  end.
(** 915-935: one row more *)
Fixpoint put (r : Z) (ps : list (list Z)) : list (list Z) :=
  match ps with
  | [] => [[r]]
  | [p] => if Nat.ltb (length p) page_size then [p ++ [r]] else [p; [r]]
  | p :: ps => p :: put r ps
  end.
Fixpoint gather (n m : nat) (d : db) (limit cnt : nat) (q : query) (ps : list (list Z)) : option (list (list Z)) :=
  match m with
  | O => None
  | S m =>
      match fetch n d q with
      | None => None
      | Some (None, _) => Some ps
      | Some (Some r, q) =>
          if negb (Nat.eqb limit 0) && Nat.leb limit (S cnt) then Some (put r ps)
          else gather n m d limit (S cnt) q (put r ps)
      end
  end.
(** internal_build_query 668-899; [Some None] for NULL *)
Definition on_col (c : nat) (a : arg) : bool := Nat.eqb (acol a) c.
Definition build_query (d : db) (m : option (list (option K))) (args : list arg) : option (option (query * bool)) :=
  let args := all_args m args in
  let full := Some (Some (Qscan (first_rec (recs d)) args, true)) in
  match args with
  | [] => full
  | _ =>
      match best d args (scores args) (-1) 0 (-1) with
      | None => None
      | Some (col, id) =>
          if id <=? 0 then full
          else
            let g := fold_left narrow (filter (on_col col) args) no_range in
            let args' := if rest g then args else filter (fun a => negb (on_col col a)) args in
            if match sb g, eb g with Some a, Some b => is_gt (cmp a b) | _, _ => false end
            then Some (Some (Qtree id 0 (-1) 0 (-1) [], false))       (* 813-820: not prefetched *)
            else
              match hget id (hdrs d) with
              | None => None
              | Some h =>
                  let x := hix h in let key := fld d col in
                  match start_of x key (sb g) (sincl g) with
                  | None => None
                  | Some None => Some None
                  | Some (Some (co, cs)) =>
                      match end_of x key (eb g) (eincl g) with
                      | None => None
                      | Some None => Some None
                      | Some (Some (eo, es)) =>
                          let '(co, cs, eo, es) := settle x co cs eo es in
                          Some (Some (Qtree id co cs eo es args', true))
                      end
                  end
              end
      end
  end.
(** wg_make_query (no limit: 0), wg_make_query_rc *)
Definition make_query (n : nat) (d : db) (m : option (list (option K))) (args : list arg) (limit : nat) : option (option query) :=
  match build_query d m args with
  | None => None
  | Some None => Some None
  | Some (Some (q, false)) => Some (Some q)
  | Some (Some (q, true)) =>
      match gather n n d limit 0 q [] with
      | None => None
      | Some ps => Some (Some (Qpre ps 0))
      end
  end.
(** An empty database *)
Definition no_db : db := {| recs := []; hdrs := []; table := fun _ => []; ttable := fun _ => [] |}.
End DB.
