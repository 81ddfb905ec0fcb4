(** The relevance filter ("sine" in a strategy): counting in how many clauses a symbol occurs,
    spreading relevance from the goals over rare symbols, and dropping the clauses not reached.
    Reasoner/analyze.c, Reasoner/rmain.c.
    Simplifications: a clause is its number, whether it is marked as a goal, and its atoms as trees of
    symbols; pointers to clauses are the clauses themselves.  Allocation of the vectors succeeds.  The
    product of a count and the float tolerance is computed exactly (counts below 2^22 are), with the
    tolerances doubled to stay in the integers. *)
From Coq Require Import List ZArith Bool.
Import ListNotations.
Open Scope Z_scope.

(** A term or atom as the filter sees it: a symbol (a value of the URI type, given by its number,
    Db/dbdata.c 3181-3182), anything else without arguments (variables, numbers, strings), or a
    record with its arguments. *)
Inductive tm := Sym (u : Z) | Other | App (l : list tm).
Record clause := { cid : Z; goal : bool; atoms : list tm }.

(** Reasoner/analyze.c 1018-1056 wr_get_term_symbols: a symbol not yet in the vector is pushed at its
    end; the same search and push as in wr_analyze_term 446-470. *)
Fixpoint term_symbols (x : tm) (acc : list Z) : list Z :=
  match x with
  | Sym u => if existsb (Z.eqb u) acc then acc else acc ++ [u]
  | Other => acc
  | App l => (fix go (l : list tm) (acc : list Z) := match l with [] => acc | y :: r => go r (term_symbols y acc) end) l acc
  end.
(** Reasoner/analyze.c 988-1014 wr_get_clause_symbols. *)
Definition clause_symbols (c : clause) (acc : list Z) : list Z := fold_left (fun a x => term_symbols x a) (atoms c) acc.

(** The two fields of a symbol: in how many clauses it occurs, and in which. *)
Record tables := { scount : Z -> Z; occs : Z -> list clause }.
Definition upd {A} (f : Z -> A) (i : Z) (x : A) : Z -> A := fun j => if j =? i then x else f j.
(** Reasoner/analyze.c 316-388, the end of wr_analyze_clause: for every symbol collected from the
    clause. *)
Definition bump (c : clause) (t : tables) (u : Z) : tables :=
  {| scount := upd (scount t) u (scount t u + 1); occs := upd (occs t) u (occs t u ++ [c]) |}.
(** Reasoner/analyze.c 59-115 wr_analyze_clause_list (no attached knowledge base: with one the filter
    is switched off, rmain.c 606-611). *)
Definition analyze (cls : list clause) : tables :=
  fold_left (fun t c => fold_left (bump c) (clause_symbols c []) t) cls {| scount := fun _ => 0; occs := fun _ => [] |}.

(** Reasoner/analyze.c 1087-1131 wr_sine_check_trigger_term. *)
Fixpoint check_term (sc : Z -> Z) (x : tm) (n tol2 common : Z) : bool :=
  match x with
  | Sym u => if negb (common =? 0) then (if sc u <? common then false else true)
             else (if sc u * tol2 <? 2 * n then false else true)
  | Other => true
  | App l => forallb (fun y => check_term sc y n tol2 common) l
  end.
(** Reasoner/analyze.c 1060-1083 wr_sine_check_trigger_cl. *)
Definition check_cl (sc : Z -> Z) (c : clause) (n tol2 common : Z) : bool :=
  forallb (fun x => check_term sc x n tol2 common) (atoms c).

(** Reasoner/glb.h 135: the tables of levels have this many bytes. *)
Definition table_size : Z := 10000000.
(** Reasoner/analyze.c 544-545: levels fit a char. *)
Definition maxk : Z := 120.
(** Reasoner/analyze.c 946-980: levels of clauses and of symbols, in tables by number. *)
Definition set_cl (t : Z -> Z) (c : clause) (k : Z) : Z -> Z := if table_size <=? cid c then t else upd t (cid c) k.
Definition get_cl (t : Z -> Z) (c : clause) : Z := if table_size <=? cid c then 0 else t (cid c).
Definition set_uri (t : Z -> Z) (u k : Z) : Z -> Z := if table_size <=? u then t else upd t u k.
Definition get_uri (t : Z -> Z) (u : Z) : Z := if table_size <=? u then 100 else t u.

Record params := { p_common : Z; p_maxcommon : Z; p_maxtriggers : Z; p_tol2 : Z; p_g : Z }.
Definition clamp (x : Z) : Z := if 10000 <? x then 10000 else if x <? 10 then 10 else x.
(** Reasoner/analyze.c 526-527, 544-549, 612-627, 664-671, 718-759: the constants for the value of
    "sine" in the strategy, from the number of symbols, the number of clauses and the largest count. *)
Definition params_for (strat nuris n maxcount : Z) : params :=
  let weak := strat =? 1 in
  {| p_common := if weak then (if maxcount <? 50 then 7 * maxcount / 10 else 10) else 10;
     p_maxcommon := if weak then 1000000 else clamp (nuris / 10);
     p_maxtriggers :=
       if strat =? 3 then clamp (n / 10) else if strat =? 4 then clamp (n / 15)
       else if strat =? 5 then (if 10000 <? n / 20 then 1000 else if n / 20 <? 10 then 10 else n / 20)
       else if weak then 1000000 else clamp (n / 10);
     p_tol2 := if strat =? 3 then 8 else if strat =? 4 then 4 else if strat =? 5 then 2
               else if n <? 100000 then 8 else 3;
     p_g := if strat =? 3 then 2 else if (strat =? 4) || (strat =? 5) then 1
            else if n <? 100 then 4 else if n <? 1000 then 3 else if n <? 10000 then 2 else 1 |}.

(** Reasoner/analyze.c 632-660: goals get level 1 and give the first symbols; clauses of common symbols
    only get level 121 while there are not too many. *)
Definition init_step (p : params) (sc : Z -> Z) (s : (Z -> Z) * list Z * Z) (c : clause) : (Z -> Z) * list Z * Z :=
  let '(k, us, found) := s in
  if goal c then (set_cl k c 1, clause_symbols c us, found)
  else if negb (p_common p =? 0) && (found <? p_maxcommon p) then
    (if check_cl sc c 1 4 (p_common p) then (set_cl k c (maxk + 1), us, found + 1) else s)
  else s.

(** The state of the main loop: the levels, how often a clause was triggered, and the symbols not yet
    handled (the vector from the loop counter on). *)
Record st := { clk : Z -> Z; urk : Z -> Z; trig : Z; queue : list Z }.

(** Reasoner/analyze.c 864-880: the symbols of a triggered clause. *)
Definition push_sym (k : Z) (s : st) (u : Z) : st :=
  let ik := get_uri (urk s) u in
  if (ik =? 0) || (k + 1 <? ik) then
    {| clk := clk s; urk := set_uri (urk s) u (k + 1); trig := trig s; queue := queue s ++ [u] |}
  else s.
(** Reasoner/analyze.c 842-884: the occurrences of a symbol of level [k]. *)
Fixpoint occ_loop (p : params) (t : tables) (k n : Z) (l : list clause) (s : st) : st :=
  match l with
  | [] => s
  | c :: r =>
      let sk := get_cl (clk s) c in
      if (sk =? 0) || (k + 1 <? sk) then
        if (p_g p <? n) && negb (check_cl (scount t) c n (p_tol2 p) 0) then occ_loop p t k n r s
        else
          let s1 := {| clk := set_cl (clk s) c (k + 1); urk := urk s; trig := trig s + 1; queue := queue s |} in
          if p_maxtriggers p <=? trig s1 then s1
          else occ_loop p t k n r (fold_left (push_sym k) (clause_symbols c []) s1)
      else occ_loop p t k n r s
  end.
Definition pop (s : st) (r : list Z) : st := {| clk := clk s; urk := urk s; trig := trig s; queue := r |}.
(** Reasoner/analyze.c 815-888: the loop over the symbols; [None] if the fuel does not suffice. *)
Fixpoint main_loop (p : params) (t : tables) (fuel : nat) (s : st) : option st :=
  match fuel with
  | O => None
  | S f =>
      match queue s with
      | [] => Some s
      | u :: r =>
          if p_maxtriggers p <=? trig s then Some s
          else let k := get_uri (urk s) u in
               if maxk <? k then main_loop p t f (pop s r)
               else main_loop p t f (occ_loop p t k (scount t u) (occs t u) (pop s r))
      end
  end.
Definition goal_uris (us : list Z) : Z -> Z := fold_left (fun t u => set_uri t u 1) us (fun _ => 0).
(** Reasoner/analyze.c 504-924 wr_analyze_sine.  [uris]: the list of all symbols of the database. *)
Definition sine (strat : Z) (uris : list Z) (cls : list clause) : option st :=
  let t := analyze cls in
  let maxcount := fold_left (fun m u => Z.max m (scount t u)) uris 0 in
  let p := params_for strat (Z.of_nat (length uris)) (Z.of_nat (length cls)) maxcount in
  let '(k, us, found) := fold_left (init_step p (scount t)) cls (fun _ => 0, [], 0) in
  main_loop p t (S (length us + length (flat_map (fun c => clause_symbols c []) cls)))
    {| clk := k; urk := goal_uris us; trig := 0; queue := us |}.
(** Reasoner/rmain.c 1353-1368: a clause without a level is not loaded. *)
Definition loaded (s : st) (cls : list clause) : list clause := filter (fun c => negb (get_cl (clk s) c =? 0)) cls.
