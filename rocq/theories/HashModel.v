(** Hashing of terms, the ground-unit stores and the index of literals.
    Code: Reasoner/hash.c 250-449 (prefix, term and base hashes), 452-509 (hashes of values),
    520-692 (hash lists), 903-1013 (term hash stores); hash.h 60-61; clstore.c 302-408
    (storing a clause's literals for resolution); resolve.c 132-251 (looking candidates up).
    Configuration: NROF_CLTERM_HASHVEC_ELS = 1000000, ATOM_PREFHASH_MAXLEN = 3,
    TERMHASH_INITIAL_BUCKETSIZE = 4, SIMPLE_ACTIVE_SEARCH_HASH undefined, use_prop_constant = 0.
    Signed arithmetic wraps, as compiled by gcc. *)
From Coq Require Import List ZArith Bool.
From Verif Require Import Word64 Terms MatchModel VecModel.
Import ListNotations.
Open Scope Z_scope.

(** * Hashes *)
Definition neg_fix32 (h : Z) : Z := if h <? 0 then w32 (0 - h) else h.

(** int_hash 452-459: the product is a long *)
Definition int_hash (x : Z) : Z :=
  let a := Z.rem (x * 2654435769) 999998 in if 0 <=? a then a else 0 - a.
(** str_hash 470-483 and str_dual_hash 486-509 on the characters up to the terminating 0 *)
Fixpoint str_sum (cs : list Z) (h : Z) : Z :=
  match cs with
  | [] => h
  | c :: cs => if c =? 0 then h else str_sum cs ((c + h * 2 ^ 6 + h * 2 ^ 16 - h) mod 2 ^ 64)
  end.
Definition str_hash (cs : list Z) : Z := w32 (str_sum cs 0).

Section Hash.
  (** double_hash 462-465 of a double, and the text (with the language text after it) of a
      long string: functions of the value, otherwise arbitrary. *)
  Variable dhash : dblv -> Z.
  Variable ltext : Z -> list Z.

  (** The switch of wr_term_basehash 371-441 on a constant; types as in wg_get_encoded_type. *)
  Definition value_hash (c : cst) : Z :=
    match c with
    | CImm w =>
        if w =? 0 then 0
        else if Z.land w 7 =? 3 then int_hash (w32 (shr w 3))
        else if Z.land w 255 =? 15 then 2
        else int_hash (w32 w)
    | CInt z => int_hash (w32 z)
    | CDbl d => dhash d
    | CShort bs => str_hash bs
    | CLong o => str_hash (ltext o)
    end.
  (** 442-448 *)
  Definition basehash (c : cst) : Z := 1 + Z.rem (neg_fix32 (value_hash c)) 999997.
  (** 422-427, with use_prop_constant = 0 *)
  Definition var_basehash (i : Z) : Z := 1 + Z.rem (neg_fix32 (int_hash (w32 i))) 999997.

  (** wr_lit_hash, wr_term_hash 322-355 *)
  Definition mix64 (tmp h : Z) : Z :=
    let h := w64 (tmp + h * 2 ^ 6 + h * 2 ^ 16 - h) in if h <? 0 then w64 (0 - h) else h.
  Fixpoint term_hash (t : term) : Z :=
    match t with
    | TVar i => var_basehash i
    | TCst c => basehash c
    | TRec fs =>
        let h := Z.rem (fold_left (fun h f => mix64 (term_hash f) h) fs 0) 999998 in
        if h <? 0 then 0 - h else h
    end.

  (** * Stores of unit literals *)
  (** What the word of a stored term denotes. *)
  Variable den : Z -> term.

  (** A hash array: its length word, and what the buckets hold (None: word 0). *)
  Record harr := { hlen : Z; cells : Z -> option vec }.
  Definition set_cell (h : harr) (k : Z) (v : vec) : harr :=
    {| hlen := hlen h; cells := fun j => if j =? k then Some v else cells h j |}.
  (** wr_vec_new_zero *)
  Definition new_harr (len : Z) : harr := {| hlen := len; cells := fun _ => None |}.

  (** 923-927, 981-985 *)
  Definition slot (h : harr) (hash : Z) : Z :=
    let hash := if hash <? 0 then 0 - hash else hash in
    let hash := if hlen h <=? hash + 1 then Z.rem hash (hlen h - 1) else hash in
    hash + 1.

  (** wr_push_offset_termhash 916-957; [ok1], [ok2]: the reallocations succeed.
      [None]: NULL is returned. *)
  Definition push_termhash (ok0 ok1 ok2 : bool) (junk : nat -> Z) (h : harr) (hash term cl : Z) : option harr :=
    let k := slot h hash in
    let bucket := match cells h k with
                  | Some v => Some v
                  | None => if ok0 then Some (cvec_new 4 junk) else None
                  end in
    match bucket with
    | None => None
    | Some v =>
        match cvec_push ok1 junk v term with
        | VOk v1 => match cvec_push ok2 junk v1 cl with
                    | VOk v2 => Some (set_cell h k v2)
                    | _ => None
                    end
        | _ => None
        end
    end.

  (** wr_find_offset_termhash 966-1013 *)
  Inductive fres := FFound (cl : Z) | FNone | FStray | FUB.
  Variable sb : stray_env.
  Fixpoint find_loop (n : nat) (x : term) (v : vec) (j : Z) : fres :=
    match rd v 0, rd v 1 with
    | Some len, Some next =>
        if (j <? len) && (j <? next) then
          match n with
          | O => FUB
          | S n =>
              match rd v j with
              | None => FUB
              | Some w =>
                  match equal_term sb x (den w) with
                  | EYes => match rd v (j + 1) with Some cl => FFound cl | None => FUB end
                  | ENo => find_loop n x v (j + 2)
                  | EStray => FStray
                  end
              end
          end
        else FNone
    | _, _ => FUB
    end.
  Definition find_termhash (h : harr) (x : term) (hash : Z) : fres :=
    match cells h (slot h hash) with
    | None => FNone
    | Some v => find_loop (length v) x v 2
    end.

  (** Storing and looking up a literal: derive.c 1899-1932, subsume.c 497-520. *)
  Definition store_unit ok0 ok1 ok2 junk (h : harr) (w cl : Z) : option harr :=
    push_termhash ok0 ok1 ok2 junk h (term_hash (den w)) w cl.
  Definition find_unit (h : harr) (x : term) : fres := find_termhash h x (term_hash x).

  (** * Hash lists *)
  (** A node: CLTERM_HASHNODE_*; in the first node of a list field 0 is the length. *)
  Record node := { n_term : Z; n_cl : Z; n_path : Z; n_next : Z }.
  Record hlist := { vlen : Z; heads : Z -> Z; nodes : Z -> node }.
  Definition new_hlist (len : Z) (nd : Z -> node) : hlist := {| vlen := len; heads := fun _ => 0; nodes := nd |}.
  Definition set_node (nd : Z -> node) (a : Z) (x : node) : Z -> node := fun b => if b =? a then x else nd b.

  Inductive lres := LOk (l : hlist) | LBadHash | LNoMem.
  (** wr_clterm_add_hashlist_withpath 525-598; [a0], [a1]: the addresses malloc returns for the
      first node of a new list and for the entry, 0 for none. *)
  Definition add_hashlist (l : hlist) (hash : Z) (term cl path a0 a1 : Z) : lres :=
    if (vlen l <=? hash) || (hash <? 1) then LBadHash
    else
      let cell := heads l hash in
      if cell =? 0 then
        if (a0 =? 0) || (a1 =? 0) then LNoMem
        else
          let nd := set_node (nodes l) a0 {| n_term := 1; n_cl := n_cl (nodes l a0); n_path := n_path (nodes l a0); n_next := n_next (nodes l a0) |} in
          let nd := set_node nd a1 {| n_term := term; n_cl := cl; n_path := path; n_next := 0 |} in
          let p := nd a0 in
          LOk {| vlen := vlen l; heads := fun h => if h =? hash then a0 else heads l h;
                 nodes := set_node nd a0 {| n_term := n_term p; n_cl := n_cl p; n_path := n_path p; n_next := a1 |} |}
      else
        if a1 =? 0 then LNoMem
        else
          let p := nodes l cell in
          let nd := set_node (nodes l) cell {| n_term := n_term p + 1; n_cl := n_cl p; n_path := n_path p; n_next := n_next p |} in
          let nextnode := n_next p in
          let nd := set_node nd a1 {| n_term := term; n_cl := cl; n_path := path; n_next := nextnode |} in
          let p := nd cell in
          LOk {| vlen := vlen l; heads := heads l;
                 nodes := set_node nd cell {| n_term := n_term p; n_cl := n_cl p; n_path := n_path p; n_next := a1 |} |}.

  (** wr_clterm_hashlist_len 666-675 *)
  Definition hashlist_len (l : hlist) (hash : Z) : Z :=
    if (vlen l <=? hash) || (hash <? 1) then -1
    else if heads l hash =? 0 then 0 else n_term (nodes l (heads l hash)).
  (** wr_clterm_hashlist_start 677-688 *)
  Definition hashlist_start (l : hlist) (hash : Z) : Z :=
    if (vlen l <=? hash) || (hash <? 1) then 0
    else if heads l hash =? 0 then 0 else n_next (nodes l (heads l hash)).
  (** The loop over a list, e.g. resolve.c 251-...: the (term, clause, path) triples met;
      [None]: out of fuel. *)
  Fixpoint walk (n : nat) (l : hlist) (a : Z) : option (list (Z * Z * Z)) :=
    if a =? 0 then Some []
    else match n with
         | O => None
         | S n => match walk n l (n_next (nodes l a)) with
                  | None => None
                  | Some r => Some ((n_term (nodes l a), n_cl (nodes l a), n_path (nodes l a)) :: r)
                  end
         end.

  (** * The index of literals for resolution *)
  (** WR_HASH_ADD, WR_HASH_NORM; abs(INT_MIN) is INT_MIN *)
  Definition hash_add (toadd orig : Z) : Z := w64 (toadd + orig * 2 ^ 6 + orig * 2 ^ 16 - orig).
  Definition hash_norm (x : Z) : Z := 1 + Z.rem (w32 (Z.abs (w32 x))) 999998.

  (** wr_atom_calc_prefhashes_aux 277-312: (go on, preflen, prefhashes so far in order) *)
  Section PrefLoop.
    Variable f : term -> list Z -> bool * list Z.
    Fixpoint pref_loop (ts : list term) (ps : list Z) : bool * list Z :=
      match ts with
      | [] => (true, ps)
      | t :: ts => match f t ps with (true, ps') => pref_loop ts ps' | r => r end
      end.
  End PrefLoop.
  Fixpoint prefhashes (t : term) (ps : list Z) : bool * list Z :=
    match t with
    | TVar _ => (false, ps)
    | TCst c =>
        match ps with
        | [] => (true, [basehash c])
        | [p0] => (true, [p0; hash_add (basehash c) p0])
        | p0 :: p1 :: _ => (false, [p0; p1; hash_add (basehash c) p1])
        end
    | TRec fs => pref_loop prefhashes fs ps
    end.
  (** wr_atom_calc_prefhashes 250-274; preflen is the length of the list *)
  Definition atom_prefs (t : term) : list Z := snd (prefhashes t []).

  (** The keys under which an atom is stored, clstore.c 364-367. *)
  Definition store_keys (t : term) : list Z :=
    let ps := atom_prefs t in
    map (fun p => hash_norm (hash_add (Z.of_nat (length ps) - 1) p)) ps.
  (** The keys looked up, resolve.c 207-232; prefhashes not computed are 0 (253-255). *)
  Definition lookup_keys (t : term) : list Z :=
    let ps := atom_prefs t in
    map (fun plen =>
           let p := if Nat.eqb (length ps) 1 then nth 0 ps 0
                    else if Nat.eqb (length ps) 2 then (if Nat.eqb plen 0 then nth 0 ps 0 else nth 1 ps 0)
                    else nth plen ps 0 in
           hash_norm (hash_add (Z.of_nat plen) p)) [0%nat; 1%nat; 2%nat].

  (** clstore.c 364-390: the atom is added under all its keys; [addrs]: malloc's answers. *)
  Fixpoint add_keys (keys : list Z) (l : hlist) (w cl : Z) (addrs : list (Z * Z)) : lres :=
    match keys, addrs with
    | [], _ => LOk l
    | k :: keys, (a0, a1) :: addrs =>
        match add_hashlist l k w cl 0 a0 a1 with
        | LOk l => add_keys keys l w cl addrs
        | r => r
        end
    | _, [] => LNoMem
    end.
  Definition store_atom (l : hlist) (w cl : Z) (addrs : list (Z * Z)) : lres :=
    add_keys (store_keys (den w)) l w cl addrs.

  (** resolve.c 207-251: the candidates tried for an atom; [None]: exit(1) (247-248), or out
      of fuel. *)
  Fixpoint lookup_all (n : nat) (l : hlist) (keys : list Z) : option (list (Z * Z * Z)) :=
    match keys with
    | [] => Some []
    | k :: keys =>
        if hashlist_len l k =? 0 then lookup_all n l keys
        else if hashlist_start l k =? 0 then None
        else match walk n l (hashlist_start l k), lookup_all n l keys with
             | Some r, Some rs => Some (r ++ rs)
             | _, _ => None
             end
    end.
  Definition candidates (n : nat) (l : hlist) (x : term) : option (list (Z * Z * Z)) :=
    lookup_all n l (lookup_keys x).
End Hash.
