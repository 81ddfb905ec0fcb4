(** Literal and clause fingerprints, their comparison, and clause sorting.
    Code: Reasoner/clterm.h 113-143, Reasoner/clmeta.h 43-73, Reasoner/clmeta.c 404-680,
    766-921, Reasoner/subsume.c 408-476, 1692-1758.
    Simplifications: [weight], [topvars], [groundhash] and the statistics counters are
    dropped (not read by anything modelled); sizes and depths are unbounded integers (the C
    [int] counters would need 2^31 symbols to overflow); [prefhash] wraps as a C [int]. *)
From Coq Require Import List ZArith Bool.
From Verif Require Import Terms.
Import ListNotations.
Open Scope Z_scope.

(** Conversion of a gint to C int. *)
Definition wrap32 (z : Z) : Z := (z + 2147483648) mod 4294967296 - 2147483648.

(** term_metacalc, clmeta.h 61-73. *)
Record tmeta := { hasvars : bool; depth : Z; size : Z; preflen : Z; prefhash : Z;
                  pref1hash : Z; pref2hash : Z; pref3hash : Z }.
Definition tmeta0 : tmeta :=
  {| hasvars := false; depth := 0; size := 0; preflen := 0; prefhash := 0;
     pref1hash := 0; pref2hash := 0; pref3hash := 0 |}.

(** Bit fields, clterm.h 113-143, Db/dbdata.h 332-338. *)
Definition smallint_shft := 3.
Definition encode_smallint (z : Z) : Z := Z.lor (Z.shiftl z smallint_shft) 3.
Definition neg_raw : Z := Z.shiftl (Z.shiftl 1 22) smallint_shft.
Definition ground_raw : Z := Z.shiftl (Z.shiftl 1 21) smallint_shft.
Definition cansubs_raw : Z := Z.shiftl 4194048 smallint_shft.          (* 0x3FFF00 *)
Definition groundcmp_raw : Z := Z.shiftl 4194303 smallint_shft.        (* 0x3FFFFF *)
Definition depthcansubs_raw : Z := Z.shiftl 65280 smallint_shft.       (* 0xFF00 *)
Definition preflencansubs_raw : Z := Z.shiftl 1792 smallint_shft.      (* 0x700 *)
Definition preflen_raw : Z := Z.shiftl (Z.shiftl 7 8) smallint_shft.
Definition prefhash_raw : Z := Z.shiftl 255 smallint_shft.

Definition meta_is_neg (m : Z) : bool := negb (Z.land m neg_raw =? 0).        (* clterm.h 182 *)
Definition meta_is_ground (m : Z) : bool := negb (Z.land m ground_raw =? 0).  (* clterm.h 184 *)
Definition negpolarities (m1 m2 : Z) : bool :=                                (* clterm.h 183 *)
  negb (Z.land m1 neg_raw =? Z.land m2 neg_raw).

Section Meta.
  (** wr_term_basehash, hash.c 357-448, as an arbitrary function of the constant. *)
  Variable basehash : cst -> Z.

  (** Leaf cases of wr_calc_term_meta, clmeta.c 613-637. *)
  Definition leaf_var (m : tmeta) : tmeta :=
    {| hasvars := true; depth := depth m; size := size m + 1; preflen := preflen m;
       prefhash := prefhash m; pref1hash := pref1hash m; pref2hash := pref2hash m;
       pref3hash := pref3hash m |}.
  Definition leaf_cst (c : cst) (m : tmeta) : tmeta :=
    if hasvars m then
      {| hasvars := true; depth := depth m; size := size m + 1; preflen := preflen m;
         prefhash := prefhash m; pref1hash := pref1hash m; pref2hash := pref2hash m;
         pref3hash := pref3hash m |}
    else
      let ht := prefhash m + basehash c in                       (* 627 *)
      let ht := if ht <? 0 then 0 - ht else ht in                (* 629 *)
      let ph := wrap32 ht in                                     (* 630 *)
      let pl := preflen m + 1 in                                 (* 631 *)
      {| hasvars := false; depth := depth m; size := size m + 1; preflen := pl;
         prefhash := ph;
         pref1hash := if pl =? 1 then ph else pref1hash m;       (* 632-634 *)
         pref2hash := if pl =? 2 then ph else pref2hash m;
         pref3hash := if pl =? 3 then ph else pref3hash m |}.
  Definition set_depth (d : Z) (m : tmeta) : tmeta :=            (* 643 *)
    {| hasvars := hasvars m; depth := if depth m <? d then d else depth m; size := size m;
       preflen := preflen m; prefhash := prefhash m; pref1hash := pref1hash m;
       pref2hash := pref2hash m; pref3hash := pref3hash m |}.

  (** wr_calc_term_meta, clmeta.c 596-680. *)
  Fixpoint calc_term_meta (t : term) (d : Z) (m : tmeta) {struct t} : tmeta :=
    match t with
    | TVar _ => leaf_var m
    | TCst c => leaf_cst c m
    | TRec fs => fold_left (fun m f => calc_term_meta f (d + 1) m) fs (set_depth (d + 1) m)
    end.
End Meta.

(** wr_litmeta_to_gint, clmeta.c 404-426. *)
Definition litmeta_to_gint (m : tmeta) : Z :=
  let r := Z.shiftl (if hasvars m then 0 else 1) 21 in
  let r := Z.lor r (Z.shiftl (if 31 <? size m then 31 else size m) 16) in
  let r := Z.lor r (Z.shiftl (if 31 <? depth m then 31 else depth m) 11) in
  let r := Z.lor r (Z.shiftl (if 7 <? preflen m then 7 else preflen m) 8) in
  let r := Z.lor r (Z.shiftl (if 255 <? prefhash m then Z.land (Z.rem (prefhash m) 255) 255
                              else prefhash m) 0) in
  encode_smallint r.

(** wr_sort_meta_bigger, clmeta.c 839-862. *)
Definition sort_meta_bigger (j i : Z) : bool :=
  if meta_is_ground j then
    if meta_is_ground i then i <? j else true
  else if meta_is_ground i then false
  else Z.land i cansubs_raw <? Z.land j cansubs_raw.

(** wr_matchable_lit_meta, subsume.c 1692-1758. *)
Definition matchable_lit_meta (mx my : Z) : bool :=
  if Z.land my cansubs_raw <? Z.land mx cansubs_raw then false               (* 1703 *)
  else if meta_is_ground mx then                                             (* 1708 *)
    Z.land mx groundcmp_raw =? Z.land my groundcmp_raw                       (* 1719 *)
  else if (Z.land my depthcansubs_raw <? Z.land mx depthcansubs_raw)
       || (Z.land my preflencansubs_raw <? Z.land mx preflencansubs_raw)     (* 1732 *)
  then false
  else if (Z.land mx preflen_raw =? Z.land my preflen_raw)                   (* 1742 *)
       && negb (Z.shiftr (Z.shiftr (Z.land mx preflen_raw) 8) smallint_shft =? 7)
       && negb (Z.land mx prefhash_raw =? Z.land my prefhash_raw)
  then false
  else true.

(** A rule-clause literal in memory: meta word and atom. *)
Definition mlit := (Z * term)%type.

(** ** Sorting *)
Section Sort.
  (** wr_order_2_atoms_lex_order, clmeta.c 935-999, as an arbitrary tie-break: 1 if the
      first atom is smaller, 2 if bigger, 0 if equal. *)
  Variable lex : term -> term -> Z.

  (** wr_sort_2_meta_bigger, clmeta.c 865-921. *)
  Definition lex_bigger (ja ia : term) : bool := lex ja ia =? 2.
  Definition sort_2_meta_bigger (j i : mlit) : bool :=
    let (jm, ja) := j in
    let (im, ia) := i in
    if meta_is_ground jm then
      if meta_is_ground im then
        if im <? jm then true
        else if jm <? im then false
        else if meta_is_neg jm && negb (meta_is_neg im) then true
        else if negb (meta_is_neg jm) && meta_is_neg im then false
        else lex_bigger ja ia
      else true
    else if meta_is_ground im then false
    else if Z.land im cansubs_raw <? Z.land jm cansubs_raw then true
    else if Z.land jm cansubs_raw <? Z.land im cansubs_raw then false
    else if meta_is_neg jm && negb (meta_is_neg im) then true
    else if meta_is_neg im && negb (meta_is_neg jm) then false
    else lex_bigger ja ia.

  (** Array update. *)
  Fixpoint upd (n : nat) (x : mlit) (l : list mlit) : list mlit :=
    match l, n with
    | [], _ => []
    | _ :: l', O => x :: l'
    | y :: l', S n' => y :: upd n' x l'
    end.

  (** wr_inssort_cl, clmeta.c 803-828.  [k] is j+1.  The code also reads the pair at index
      -1 when j reaches -1 (the record header) but does not use it. *)
  Fixpoint ins_down (k : nat) (x : mlit) (l : list mlit) : list mlit :=
    match k with
    | O => upd O x l
    | S j =>
        match nth_error l j with
        | None => l
        | Some y => if sort_2_meta_bigger y x then upd (S j) x l         (* 817, 825 *)
                    else ins_down j x (upd (S j) y l)                    (* 818-820 *)
        end
    end.
  (** The outer loop, i from [i] for [n] more rounds. *)
  Fixpoint inssort (n i : nat) (l : list mlit) : list mlit :=
    match n with
    | O => l
    | S n' =>
        match nth_error l i with
        | None => l
        | Some x => inssort n' (S i) (ins_down i x l)
        end
    end.
  (** wr_sort_cl, clmeta.c 766-793, on a rule clause. *)
  Definition sort_cl (l : list mlit) : list mlit :=
    if Nat.ltb (length l) 2 then l else inssort (length l - 1) 1 l.
End Sort.

(** ** Clause fingerprint *)
(** limit_byte, clmeta.c 565-569. *)
Definition limit_byte (nr : Z) : Z :=
  if (nr <? 255) && (0 <=? nr) then nr else if 255 <? nr then 255 else 0.
(** wr_signed_lithash_to_bitmask, wr_lithash_to_bitmask, clmeta.c 571-584.  A negative hash
    would shift by a negative amount, which is undefined in C. *)
Definition signed_lithash_to_bitmask (h : Z) (neg : bool) : Z :=
  let pos := Z.rem h 15 + 1 in Z.shiftl 1 (if neg then pos + 15 else pos).
Definition lithash_to_bitmask (h : Z) : Z := Z.shiftl 1 (Z.rem h 30 + 1).

(** cl_metacalc, clmeta.h 75-97 (the fields used). *)
Record cmeta := { c_len : Z; c_neglen : Z; c_groundlen : Z; c_hasvars : bool; c_depth : Z;
                  c_size : Z; c_preflen : Z; c_p1 : Z; c_p2 : Z; c_p3 : Z }.

(** Per-literal part of wr_calc_clause_meta, clmeta.c 471-510. *)
Definition add_lit (m : tmeta) (neg : bool) (c : cmeta) : cmeta :=
  {| c_len := c_len c;
     c_neglen := if neg then c_neglen c + 1 else c_neglen c;
     c_groundlen := if hasvars m then c_groundlen c else c_groundlen c + 1;
     c_hasvars := if hasvars m then true else c_hasvars c;
     c_depth := if c_depth c <? depth m then depth m else c_depth c;
     c_size := c_size c + size m;
     c_preflen := if c_preflen c <? preflen m then preflen m else c_preflen c;
     c_p1 := if pref1hash m =? 0 then c_p1 c else Z.lor (c_p1 c) (signed_lithash_to_bitmask (pref1hash m) neg);
     c_p2 := if pref2hash m =? 0 then c_p2 c else Z.lor (c_p2 c) (lithash_to_bitmask (pref2hash m));
     c_p3 := if pref3hash m =? 0 then c_p3 c else Z.lor (c_p3 c) (lithash_to_bitmask (pref3hash m)) |}.

(** Reset between literals, clmeta.c 511-520: pref1hash, pref2hash and pref3hash are not
    reset. *)
Definition reset_lit (m : tmeta) : tmeta :=
  {| hasvars := false; depth := 0; size := 0; preflen := 0; prefhash := 0;
     pref1hash := pref1hash m; pref2hash := pref2hash m; pref3hash := pref3hash m |}.

Section ClauseMeta.
  Variable basehash : cst -> Z.

  (** wr_calc_clause_meta, clmeta.c 467-522 (rule clause): new literal metas and clause
      totals. *)
  Fixpoint clause_lits (l : list mlit) (m : tmeta) (c : cmeta) : list mlit * cmeta :=
    match l with
    | [] => ([], c)
    | (xm, a) :: l' =>
        let neg := meta_is_neg xm in
        let m := calc_term_meta basehash a 0 m in
        let lm := litmeta_to_gint m in
        let lm := if neg then Z.lor lm neg_raw else lm in
        let (r, c') := clause_lits l' (reset_lit m) (add_lit m neg c) in
        ((lm, a) :: r, c')
    end.

  (** The five words of a clause metablock, clmeta.c 524-537, clmeta.h 43-57. *)
  Record mblock := { b_lengths : Z; b_sizes : Z; b_p1 : Z; b_p2 : Z; b_p3 : Z }.
  Definition pack (c : cmeta) : mblock :=
    {| b_lengths := Z.lor (Z.lor (Z.lor (Z.shiftl (if c_hasvars c then 0 else 1) 24)
                                        (Z.shiftl (limit_byte (c_len c)) 16))
                                 (Z.shiftl (limit_byte (c_neglen c)) 8))
                          (Z.shiftl (limit_byte (c_groundlen c)) 0);
       b_sizes := Z.lor (Z.lor (Z.shiftl (limit_byte (c_depth c)) 16)
                               (Z.shiftl (limit_byte (c_size c)) 8))
                        (Z.shiftl (limit_byte (c_preflen c)) 0);
       b_p1 := c_p1 c; b_p2 := c_p2 c; b_p3 := c_p3 c |}.
  Definition cmeta0 (n : Z) : cmeta :=
    {| c_len := n; c_neglen := 0; c_groundlen := 0; c_hasvars := false; c_depth := 0;
       c_size := 0; c_preflen := 0; c_p1 := 0; c_p2 := 0; c_p3 := 0 |}.
  Definition calc_clause_meta (l : list mlit) : list mlit * mblock :=
    let (r, c) := clause_lits l tmeta0 (cmeta0 (Z.of_nat (length l))) in (r, pack c).

  (** The same for a fact clause, clmeta.c 448-466: the literal's own fingerprint is never
      computed, all counters stay 0 except length and ground length. *)
  Definition fact_metablock : mblock :=
    pack {| c_len := 1; c_neglen := 0; c_groundlen := 1; c_hasvars := false; c_depth := 0;
            c_size := 0; c_preflen := 0; c_p1 := 0; c_p2 := 0; c_p3 := 0 |}.
End ClauseMeta.

(** wr_clmetablock_can_subsume, subsume.c 408-476, with instgen_strat=0 (the default,
    glb.c 241). *)
Definition byte_at (w sh : Z) : Z := Z.land w (Z.shiftl 255 sh).
Definition clmetablock_can_subsume (g s : mblock) : bool :=
  let gel := b_lengths g in let sel := b_lengths s in
  if sel <? gel then false                                                   (* 433 *)
  else if byte_at sel 16 <? byte_at gel 16 then false                        (* 434 *)
  else if byte_at sel 8 <? byte_at gel 8 then false                          (* 436 *)
  else if byte_at sel 0 <? byte_at gel 0 then false                          (* 438 *)
  else if (byte_at gel 16 =? byte_at sel 16) && (byte_at sel 16 <? 255)
          && negb (byte_at gel 8 =? byte_at sel 8) then false                (* 440-444 *)
  else
  let gel := b_sizes g in let sel := b_sizes s in
  if sel <? gel then false                                                   (* 455 *)
  else if byte_at sel 8 <? byte_at gel 8 then false                          (* 456 *)
  else if byte_at sel 0 <? byte_at gel 0 then false                          (* 458 *)
  else if negb (Z.land (b_p1 g) (b_p1 s) =? b_p1 g) then false               (* 464 *)
  else if negb (Z.land (b_p2 g) (b_p2 s) =? b_p2 g) then false               (* 468 *)
  else if negb (Z.land (b_p3 g) (b_p3 s) =? b_p3 g) then false               (* 472 *)
  else true.

(** The fingerprint of one literal, as stored by clause_lits above. *)
Definition litword (basehash : cst -> Z) (neg : bool) (a : term) : Z :=
  let w := litmeta_to_gint (calc_term_meta basehash a 0 tmeta0) in
  if neg then Z.lor w neg_raw else w.
