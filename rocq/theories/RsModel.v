(** Sets of results of document queries: pages of offsets, their intersection and their unique rows, the
    set of integers by double hashing, and the merging of the results for the arguments of a query.
    Code: Db/dbquery.c 57-90, 1326-1586, 1850-2008; Db/dbhash.c 858-990.

    Simplified: the write cursor is always at the end of the last page, so it is not kept; memory for
    pages and tables does not run out; products of counts do not overflow.  [h]: rehash_gint, any function. *)
From Coq Require Import ZArith List Bool.
Import ListNotations.
Open Scope Z_scope.

Inductive res A := Ok (a : A) | Null | Fuel.
Arguments Ok {A}. Arguments Null {A}. Arguments Fuel {A}.
Definition bind {A B} (x : res A) (f : A -> res B) : res B :=
  match x with Ok a => f a | Null => Null | Fuel => Fuel end.
Notation "p <- x ;; y" := (bind x (fun p => y)) (at level 61, x at next level, right associativity).
Notation "' p <- x ;; y" := (bind x (fun p => y)) (at level 61, p pattern, x at next level, right associativity).

(** QUERY_RESULTSET_PAGESIZE 57 *)
Definition PAGESIZE := 63%nat.
(** query_result_set: the filled rows of every page (the others are 0, 1394), the read cursor, the count *)
Record rset := mkR { pages : list (list Z); rpage : option nat; rpidx : nat; count : nat }.
(** create_resultset 1335-1356 *)
Definition create : rset := mkR [] None 0 0.
(** rewind_resultset 1371-1374 *)
Definition rewind (s : rset) : rset :=
  mkR (pages s) (match pages s with [] => None | _ => Some 0%nat end) 0 (count s).
(** wcursor.pidx *)
Definition wpidx (s : rset) : nat := match pages s with [] => PAGESIZE | _ => length (last (pages s) []) end.
(** append_resultset 1381-1412 *)
Definition append (s : rset) (x : Z) : rset :=
  if (PAGESIZE <=? wpidx s)%nat then
    mkR (pages s ++ [[x]]) (match pages s with [] => Some 0%nat | _ => rpage s end) (rpidx s) (S (count s))
  else mkR (removelast (pages s) ++ [last (pages s) [] ++ [x]]) (rpage s) (rpidx s) (S (count s)).
(** fetch_resultset 1419-1433 *)
Definition fetch (s : rset) : Z * rset :=
  match rpage s with
  | None => (0, s)
  | Some p =>
      let x := nth (rpidx s) (nth p (pages s) []) 0 in
      if x =? 0 then (x, mkR (pages s) None (S (rpidx s)) (count s))
      else if (PAGESIZE <=? S (rpidx s))%nat then
        (x, mkR (pages s) (if (S p <? length (pages s))%nat then Some (S p) else None) 0 (count s))
      else (x, mkR (pages s) (Some p) (S (rpidx s)) (count s))
  end.

(** while((offset = fetch_resultset(...))) body *)
Fixpoint iter {St} (n : nat) (s : rset) (f : Z -> St -> res St) (st : St) : res St :=
  match n with
  | O => Fuel
  | S n => let '(x, s) := fetch s in if x =? 0 then Ok st else st <- f x st ;; iter n s f st
  end.
Definition each {St} (s : rset) (f : Z -> St -> res St) (st : St) : res St := iter (S (count s)) (rewind s) f st.
(** The inner loops 1504-1513, 1569-1574: is [x] in the set; the cursor stays where it is *)
Fixpoint find_in (n : nat) (s : rset) (x : Z) : res (bool * rset) :=
  match n with
  | O => Fuel
  | S n => let '(y, s) := fetch s in if y =? 0 then Ok (false, s) else if x =? y then Ok (true, s) else find_in n s x
  end.
Definition search (s : rset) (x : Z) : res (bool * rset) := find_in (S (count s)) (rewind s) x.

(** dhash_size, dbhash.c 866-889; the array has five more entries, which are not used *)
Definition primes : list Z :=
  [389; 769; 1543; 3079; 6151; 12289; 24593; 49157; 98317; 196613; 393241; 786433; 1572869; 3145739; 6291469;
   12582917; 25165843; 50331653; 100663319; 201326611].
Fixpoint pick (l : list Z) (wantsize : Z) : Z :=
  match l with
  | [] => 0
  | [p] => p
  | p :: r => if p >? wantsize then p else pick r wantsize
  end.
Definition dhash_size (entries : Z) : Z := if entries >? 2147483645 then 0 else pick primes (2 * entries).
(** dhash_table: the slots *)
Record dhash := mkD { size : Z; keys : Z -> Z }.
(** wg_dhash_init 926-937 *)
Definition dhash_init (entries : Z) : res dhash :=
  let sz := dhash_size entries in if sz =? 0 then Null else Ok (mkD sz (fun _ => 0)).

Section Rs.
Variable h : Z -> Z.
(** dhash_lookup 891-918 *)
Definition h1 (k sz : Z) : Z := h k mod sz.
Definition h2 (k sz : Z) : Z := 1 + h k mod (sz - 1).
Fixpoint probe (n : nat) (t : dhash) (key i b : Z) : Z :=
  match n with
  | O => b
  | S n =>
      let b := (h1 key (size t) + i * h2 key (size t)) mod size t in
      if (keys t b =? key) || (keys t b =? 0) then b else probe n t key (i + 1) b
  end.
Definition lookup (t : dhash) (key : Z) : Z :=
  let b := h1 key (size t) in
  if (keys t b =? key) || (keys t b =? 0) then b else probe (Z.to_nat (size t - 1)) t key 1 b.
(** wg_dhash_addkey 955-963, wg_dhash_haskey 970-973 *)
Definition addkey (t : dhash) (key : Z) : res dhash :=
  let b := lookup t key in
  if keys t b =? 0 then Ok (mkD (size t) (fun j => if j =? b then key else keys t j))
  else if negb (keys t b =? key) then Null else Ok t.
Definition haskey (t : dhash) (key : Z) : bool := keys t (lookup t key) =? key.

(** intersect_resultset 1449-1517 *)
Definition intersect (a b : rset) : res rset :=
  if Z.of_nat (count a) * Z.of_nat (count b) <? 200 then
    '(_, out) <- each a (fun x st => '(found, b') <- search (fst st) x ;;
                                     Ok (b', if found : bool then append (snd st) x else snd st)) (b, create) ;;
    Ok out
  else
    let '(a, b) := if (count b <? count a)%nat then (b, a) else (a, b) in
    t <- dhash_init (Z.of_nat (count a)) ;;
    t <- each a (fun x t => addkey t x) t ;;
    each b (fun x out => Ok (if haskey t x then append out x else out)) create.
(** unique_resultset 1528-1586 *)
Definition unique (s : rset) : res rset :=
  if Z.of_nat (count s) <? 20 then
    each s (fun x out => '(found, out) <- search out x ;; Ok (if found : bool then out else append out x)) create
  else
    t <- dhash_init (Z.of_nat (count s)) ;;
    '(_, out) <- each s (fun x st => if haskey (fst st) x then Ok st
                                     else t <- addkey (fst st) x ;; Ok (t, append (snd st) x)) (t, create) ;;
    Ok out.

(** An argument of the query: the documents that an index or a scan of the database gives for it, in the
    order they are found, or, when no index can be used, the test of one document
    (check_and_merge_recursively appends the document once, when it matches) *)
Record arg := mkA { indexed : bool; found : list Z; holds : Z -> bool }.
Definition of_list (l : list Z) : rset := fold_left append l create.
(** The loop over the arguments in wg_make_json_query 1850-2008 *)
Fixpoint merge (args : list arg) (curr : option rset) : res (option rset) :=
  match args with
  | [] => Ok curr
  | a :: r =>
      '(next, curr) <-
        match curr with
        | Some c =>
            if indexed a then Ok (of_list (found a), Some c)
            else n <- each c (fun x out => Ok (if holds a x then append out x else out)) create ;; Ok (n, None)
        | None => Ok (of_list (found a), None)
        end ;;
      next <- unique next ;;
      match curr with
      | Some c => s <- intersect c next ;; merge r (Some s)
      | None => merge r (Some next)
      end
  end.
End Rs.
