(** History records of clauses and the printing of proofs.
    Code: Reasoner/history.h 57-132 (layout, tags, roles), Reasoner/history.c 90-534 (records of
    the inference rules), 611-717 (the tag word), 774-873 (flattening), 1397-1494 (the proof of
    one answer), 1558-1613 and 1802-2372 (printed lines), Reasoner/derive.c 1053-1065 (arguments
    of the paramodulation record), Reasoner/clstore.c 785-795 (paths), Db/dbmpool.c 395-404,
    506-530 (association lists).
    Compiled with RECORD_HISTORY_ORDER; SHOW_HISTORY_ORDER is not defined.
    Simplifications: store_history is set; a clause or record is named by its encoded word, which
    is its offset; records do not overlap, and a read past the end of record [h] at field [i]
    gives [stray h i], any word; creating records and pool objects succeeds; the recursion of the
    flattening takes fuel and gives None without; a printed line is kept as its parts (number,
    rule name, cited numbers with positions, name, role, clause) and not as text. *)
From Coq Require Import List ZArith Bool.
From Verif Require Import Word64 EncModel.
Import ListNotations.
Open Scope Z_scope.

(** history.h 63-79, 110-116 *)
Definition PRIORITY_POS : Z := 0.
Definition NAME_POS : Z := 1.
Definition PREFIX_LEN : Z := 5.
Definition TAG_POS : Z := 5.
Definition PARENT1_POS : Z := 6.
Definition PARENT2_POS : Z := 7.
Definition PATH_POS : Z := 6.
Definition PARA_PARENT1_POS : Z := 7.
Definition PARA_PARENT2_POS : Z := 8.
Definition ARITH_PARENT_POS : Z := 6.
Definition ARITH_SUBST_COUNT_POS : Z := 7.
Definition ARITH_VAR_POS (n : Z) : Z := 8 + n * 2.
Definition ARITH_VALUE_POS (n : Z) : Z := 8 + n * 2 + 1.
Definition ARITH_CUT_COUNT_POS (n : Z) : Z := 8 + n * 2.

(** history.h 99-108 *)
Definition T_RESOLVE : Z := 1.
Definition T_FACTORIAL : Z := 2.
Definition T_PARA : Z := 3.
Definition T_REFLEXIVE : Z := 4.
Definition T_SIMPLIFY : Z := 5.
Definition T_PROPAGATE : Z := 6.
Definition T_PROPINST : Z := 7.
Definition T_INSTGEN : Z := 8.
Definition T_EXTPROP : Z := 9.
Definition T_ARITHINST : Z := 10.

(** history.h 124-132 *)
Definition GOAL : Z := 1.
Definition ASSUMPTION : Z := 2.
Definition FROMGOALASSUMPTION : Z := 3.
Definition FROMGOAL : Z := 4.
Definition FROMASSUMPTION : Z := 5.
Definition AXIOM : Z := 10.
Definition FROMAXIOM : Z := 11.
Definition EXTAXIOM : Z := 12.

(** The tag words: history.c 611-701.  A position above 255 is stored as 255. *)
Definition cap (p : Z) : Z := if 255 <? p then 255 else p.
Definition tag_word (tag p1 p2 : Z) : Z :=
  Z.lor (Z.lor (Z.shiftl tag 20) (Z.shiftl (cap p1) 8)) (cap p2).
(** wr_encode_history_resolve 611-620, _instgen 622-631, _propagate 637-646 *)
Definition tag_resolve (p1 p2 : Z) : Z := tag_word T_RESOLVE p1 p2.
Definition tag_instgen (p1 p2 : Z) : Z := tag_word T_INSTGEN p1 p2.
Definition tag_propagate (p1 p2 : Z) : Z := tag_word T_PROPAGATE p1 p2.
(** 648-658 *)
Definition tag_factorial (p1 p2 : Z) : Z := tag_word T_FACTORIAL p1 (if p2 <? 0 then 0 else p2).
(** 675-682 *)
Definition tag_reflexive (p1 : Z) : Z := Z.lor (Z.shiftl T_REFLEXIVE 20) (Z.shiftl (cap p1) 8).
(** 684-694 *)
Definition tag_para (p1 p2 : Z) (left : bool) : Z :=
  let n := tag_word T_PARA p1 p2 in if left then Z.lor n (Z.shiftl 1 16) else n.
(** 633-635, 660-672, 696-701 *)
Definition tag_plain (tag : Z) : Z := Z.shiftl tag 20.

(** 703-717; all masks are 15 (history.h 118-122) *)
Definition get_tag (n : Z) : Z := Z.land (Z.shiftr n 20) 15.
Definition get_extra (n : Z) : Z := Z.land (Z.shiftr n 16) 15.
Definition get_pos1 (n : Z) : Z := Z.land (Z.shiftr n 8) 15.
Definition get_pos2 (n : Z) : Z := Z.land n 15.

(** clstore.c 785-795, clstore.h 102-103 *)
Definition encode_path (litnr pos : Z) : Z := Z.lor (Z.shiftl litnr 16) pos.
Definition path_pos (n : Z) : Z := Z.land n 65535.

(** The clauses and history records: [cl_hist c] is the history field of clause [c]
    (wr_set_history 540-549), [rec h] the words of record [h] (2420-2442). *)
Record mem := { cl_hist : Z -> Z; rec : Z -> list Z }.
Definition empty : mem := {| cl_hist := fun _ => 0; rec := fun _ => [] |}.

(** How a clause came to be: the arguments given to the builders.  [cuts]: the entries of the
    vector of cutting clauses, or none (NULL); [rws]: those of the rewriting clauses. *)
Inductive op :=
| OInput (name prio : Z)
| OResolve (c1 c2 p1 p2 : Z) (cuts : option (list Z))
| OInstgen (c1 c2 p1 p2 : Z) (cuts : option (list Z))
| OPropagate (c1 c2 p1 p2 : Z)
| OFactor (c p1 p2 : Z) (cuts : option (list Z))
| OPropinst (c term : Z) (cuts : option (list Z))
| OExtprop
| OPara (from : bool) (eqcl eqpos : Z) (eqleft : bool) (into intopos termpos : Z)
        (cuts : option (list Z))
| OSimplify (c : Z) (cuts : option (list Z)) (rws : list Z)
| OArith (c : Z) (subst : list (Z * Z)) (cuts : option (list Z)).

(** The settings the roles depend on: cl_pick_queue_strategy, parse_is_included_file, and the
    shape tests of clauses (wr_is_positive_unit_cl, wr_is_negative_cl). *)
Record env := { strategy : Z; included : bool; pos_unit : Z -> bool; neg_cl : Z -> bool }.

(** 133-134: entries up to the first NULL *)
Fixpoint nonnull (l : list Z) : list Z :=
  match l with
  | [] => []
  | x :: l => if x =? 0 then [] else x :: nonnull l
  end.
Definition cutn (v : option (list Z)) : list Z := match v with Some l => nonnull l | None => [] end.

Section Build.
Variables (g : env) (m : mem).

(** wr_decode_priority 246-252: the used bit is masked *)
Definition decode_priority (w : Z) : Z := Z.land (decode_smallint w) (Z.lnot (Z.shiftl 1 8)).
(** 286-302: the priority of a parent; [None]: no parent *)
Definition parent_priority (c : option Z) : Z :=
  match c with
  | None => 0
  | Some c =>
      let h := cl_hist m c in
      if h =? 0 then FROMAXIOM
      else let p := nth (Z.to_nat PRIORITY_POS) (rec m h) 0 in
           if p =? 0 then FROMAXIOM else decode_priority p
  end.
(** 306-326.  The code tests the shape also of an absent parent, whose priority 0 is neither
    GOAL nor AXIOM, so the shape is not looked at. *)
Definition adjust (c : option Z) (p : Z) : Z :=
  let shape f := match c with Some c => f c | None => false end in
  if strategy g =? 2 then
    if (p =? GOAL) && shape (pos_unit g) then ASSUMPTION
    else if (p =? AXIOM) && included g then ASSUMPTION else p
  else if strategy g =? 3 then
    if (p =? GOAL) && negb (shape (neg_cl g)) then AXIOM
    else if p =? ASSUMPTION then AXIOM else p
  else p.
Definition goalish (p : Z) : bool := (p =? GOAL) || (p =? FROMGOAL).
Definition assumptionish (p : Z) : bool := (p =? ASSUMPTION) || (p =? FROMASSUMPTION).
(** 331-349 *)
Definition join_priority (p1 p2 : Z) : Z :=
  if (p1 =? FROMGOALASSUMPTION) || (p2 =? FROMGOALASSUMPTION)
     || (goalish p1 && assumptionish p2) || (goalish p2 && assumptionish p1)
  then FROMGOALASSUMPTION
  else if goalish p1 || goalish p2 then FROMGOAL
  else if assumptionish p1 || assumptionish p2 then FROMASSUMPTION
  else FROMAXIOM.
(** wr_calc_history_priority2 278-353 *)
Definition calc_priority (c1 c2 : option Z) : Z :=
  encode_smallint (join_priority (adjust c1 (parent_priority c1)) (adjust c2 (parent_priority c2))).

(** The words of the record an operation builds; [clid], [order]: the clause id and the number
    of clauses derived so far (552-587); the given order is set to 0.
    Fields 0-4: priority, name, id, derived order, given order. *)
Variables (clid order : Z).
Definition prefix (prio name : Z) : list Z :=
  [prio; name; encode_smallint clid; encode_smallint order; encode_smallint 0].
(** 90-121 *)
Definition build_input (name prio : Z) : list Z := prefix (encode_smallint prio) name.
(** 124-156; 159-191 and 355-378 alike *)
Definition build_two (tag c1 c2 : Z) (cuts : list Z) : list Z :=
  prefix (calc_priority (Some c1) (Some c2)) 0 ++ [encode_smallint tag; c1; c2] ++ cuts.
(** 380-410 *)
Definition build_factor (c p1 p2 : Z) (cuts : list Z) : list Z :=
  prefix (calc_priority (Some c) None) 0
  ++ [encode_smallint (if 0 <=? p2 then tag_factorial p1 p2 else tag_reflexive p1); c] ++ cuts.
(** 413-442 *)
Definition build_propinst (c term : Z) (cuts : list Z) : list Z :=
  prefix (calc_priority (Some c) None) 0 ++ [encode_smallint (tag_plain T_PROPINST); c; term] ++ cuts.
(** 445-466 *)
Definition build_extprop : list Z :=
  prefix (encode_smallint 0) 0 ++ [encode_smallint (tag_plain T_EXTPROP)].
(** 468-500 *)
Definition build_para (c1 c2 p1 p2 : Z) (cuts : list Z) (path : Z) (left : bool) : list Z :=
  prefix (calc_priority (Some c1) (Some c2)) 0
  ++ [encode_smallint (tag_para p1 p2 left); encode_smallint path; c1; c2] ++ cuts.
(** 502-534 *)
Definition build_simplify (c : Z) (cuts rws : list Z) : list Z :=
  prefix (calc_priority (Some c) None) 0 ++ [encode_smallint (tag_plain T_SIMPLIFY); c] ++ cuts ++ rws.
(** 193-231; None: subst_count is not 1 or 2 *)
Definition build_arith (c : Z) (subst : list (Z * Z)) (cuts : list Z) : option (list Z) :=
  let n := Z.of_nat (length subst) in
  if (n <? 1) || (2 <? n) then None
  else Some (prefix (calc_priority (Some c) None) 0
             ++ [encode_smallint (tag_plain T_ARITHINST); c; encode_smallint n]
             ++ flat_map (fun vv => [encode_smallint (fst vv); snd vv]) subst
             ++ [encode_smallint (Z.of_nat (length cuts))] ++ cuts).

(** derive.c 898-904, 940-946, 1019-1025, 1053-1065: the arguments of wr_build_para_history.  The
    first clause of wr_process_paramodulate_result is the equality, cut at cutpos1 = [eqpos]; the
    second is the one replaced into, at cutpos2 = [intopos]. *)
Definition para_record (from : bool) (eqcl eqpos : Z) (eqleft : bool) (into intopos termpos : Z)
    (cuts : list Z) : list Z :=
  let path := encode_path intopos termpos in
  if from then build_para eqcl into eqpos intopos cuts path eqleft
  else build_para eqcl into intopos eqpos cuts path eqleft.

Definition build (o : op) : option (list Z) :=
  match o with
  | OInput name prio => Some (build_input name prio)
  | OResolve c1 c2 p1 p2 v => Some (build_two (tag_resolve p1 p2) c1 c2 (cutn v))
  | OInstgen c1 c2 p1 p2 v => Some (build_two (tag_instgen p1 p2) c1 c2 (cutn v))
  | OPropagate c1 c2 p1 p2 => Some (build_two (tag_propagate p1 p2) c1 c2 [])
  | OFactor c p1 p2 v => Some (build_factor c p1 p2 (cutn v))
  | OPropinst c t v => Some (build_propinst c t (cutn v))
  | OExtprop => Some build_extprop
  | OPara from e ep el i ip tp v => Some (para_record from e ep el i ip tp (cutn v))
  | OSimplify c v rws => Some (build_simplify c (cutn v) rws)
  | OArith c s v => build_arith c s (cutn v)
  end.
End Build.

(** The record is stored at [h] and hung on the new clause [c] (wr_set_history 540-544). *)
Definition put (m : mem) (h c : Z) (ws : list Z) : mem :=
  {| cl_hist := fun x => if x =? c then h else cl_hist m x;
     rec := fun x => if x =? h then ws else rec m x |}.
Definition derive (g : env) (m : mem) (h c clid order : Z) (o : op) : option mem :=
  match build g m clid order o with Some ws => Some (put m h c ws) | None => None end.

Section Print.
Variables (m : mem) (stray : Z -> Z -> Z) (fullint : Z -> Z).
Definition rec_len (h : Z) : Z := Z.of_nat (length (rec m h)).
(** wr_get_history_record_field 2440-2442 *)
Definition field (h i : Z) : Z :=
  if i <? rec_len h then nth (Z.to_nat i) (rec m h) 0 else stray h i.
(** wg_get_encoded_type(..)==WG_INTTYPE, wg_decode_int (dbdata.c 1406-1452, 1554-1565);
    [fullint]: the integer a full-integer word leads to *)
Definition is_int (w : Z) : bool := issmallint w || isfullint w.
Definition int_of (w : Z) : Z :=
  if issmallint w then decode_smallint w else if isfullint w then fullint w else 0.

(** The association list of wr_flatten_history: clauses with their numbers, latest first *)
Definition alist := list (Z * Z).
(** wg_get_assoc dbmpool.c 514-525 *)
Fixpoint get_assoc (c : Z) (a : alist) : option Z :=
  match a with
  | [] => None
  | (x, n) :: a => if x =? c then Some n else get_assoc c a
  end.
(** wr_flatten_history_addcl 852-873; the state is the next number and the list *)
Definition addcl (c : Z) (st : Z * alist) : Z * alist :=
  let (nr, a) := st in
  match get_assoc c a with Some _ => st | None => (nr + 1, (c, nr) :: a) end.
Fixpoint upfrom (i : Z) (n : nat) : list Z :=
  match n with O => [] | S n => i :: upfrom (i + 1) n end.
(** for(i=start;i<len;i++) *)
Definition range (start len : Z) : list Z := upfrom start (Z.to_nat (len - start)).

Definition parents_tag (tag : Z) : bool :=
  (tag =? T_RESOLVE) || (tag =? T_FACTORIAL) || (tag =? T_PARA) || (tag =? T_REFLEXIVE)
  || (tag =? T_SIMPLIFY) || (tag =? T_PROPAGATE) || (tag =? T_PROPINST) || (tag =? T_INSTGEN).

(** wr_flatten_history 774-850; the result of a nested call is not looked at *)
Fixpoint flatten (fuel : nat) (h : Z) (st : Z * alist) : option (Z * alist) :=
  match fuel with
  | O => None
  | S fuel =>
    if h =? 0 then Some st
    else
      let len := rec_len h in
      let head := field h TAG_POS in
      if negb (is_int head) then Some st
      else
        let tag := get_tag (int_of head) in
        let visit := fun (s : option (Z * alist)) (i : Z) =>
          match s with
          | None => None
          | Some st =>
              let c := field h i in
              match get_assoc c (snd st) with
              | Some _ => Some st
              | None => match flatten fuel (cl_hist m c) st with
                        | Some st => Some (addcl c st)
                        | None => None
                        end
              end
          end in
        if tag =? T_ARITHINST then
          match visit (Some st) ARITH_PARENT_POS with
          | None => None
          | Some st =>
              let n := int_of (field h ARITH_SUBST_COUNT_POS) in
              if (n <? 1) || (2 <? n) then Some st
              else
                let cp := ARITH_CUT_COUNT_POS n in
                let cc := int_of (field h cp) in
                fold_left visit (range (cp + 1) (Z.min (cp + 1 + cc) len)) (Some st)
          end
        else if parents_tag tag then
          let start := if tag =? T_PARA then PARA_PARENT1_POS else PARENT1_POS in
          fold_left (fun s i => if (tag =? T_PROPINST) && (i =? PARENT2_POS) then s else visit s i)
            (range start len) (Some st)
        else Some st
  end.

(** A printed line *)
Inductive rule := RNone | RIn | RMp | RInstgen | RFmp | RMerge | RInst | RExtprop | RRefl | RPara
                | RSimp | RArith | RUnknown.
Inductive item :=
| IRef (n : Z) (ps : list Z) (side : option bool)   (* 12, 12.1, 12.1.2, 12.0.R; true: L *)
| ITerm (w : Z)
| ISubst (v w : Z).
Record line := { l_num : Z; l_rule : rule; l_items : list item; l_name : Z; l_role : Z; l_clause : Z }.

(** wg_get_assoc and wg_nth(..,2), which is 0 for a clause not in the list *)
Definition num_of (a : alist) (c : Z) : Z := match get_assoc c a with Some n => n | None => 0 end.

(** 2083-2118 *)
Definition item_two (a : alist) (h p1 p2 i : Z) : item :=
  let n := num_of a (field h i) in
  if i =? 1 + TAG_POS then IRef n (if p1 =? 0 then [] else [p1]) None
  else if i =? 2 + TAG_POS then IRef n (if p2 =? 0 then [] else [p2]) None
  else IRef n [] None.
(** 2140-2156 *)
Definition item_merge (a : alist) (h p1 p2 i : Z) : item :=
  let n := num_of a (field h i) in
  if i =? 1 + TAG_POS then IRef n [p1; p2] None else IRef n [] None.
(** 2177-2195 *)
Definition item_inst (a : alist) (h i : Z) : item :=
  if i =? PARENT2_POS then ITerm (field h i) else IRef (num_of a (field h i)) [] None.
(** 2224-2242 *)
Definition item_refl (a : alist) (h p1 i : Z) : item :=
  let n := num_of a (field h i) in
  if i =? 1 + TAG_POS then IRef n [p1] None else IRef n [] None.
(** 2267-2321 *)
Definition item_para (a : alist) (h p1 p2 : Z) (left : bool) (termpos i : Z) : item :=
  let n := num_of a (field h i) in
  if i =? 2 + TAG_POS then
    if p1 =? 0 then if left then IRef n [] None else IRef n [0] (Some false)
    else IRef n [p1] (Some left)
  else if i =? 3 + TAG_POS then IRef n [p2; termpos] None
  else IRef n [] None.
Definition item_ref (a : alist) (h i : Z) : item := IRef (num_of a (field h i)) [] None.
(** 2019-2056 *)
Definition items_arith (subst_too : bool) (a : alist) (h : Z) : list item :=
  let n := int_of (field h ARITH_SUBST_COUNT_POS) in
  let cp := ARITH_CUT_COUNT_POS n in
  let cc := int_of (field h cp) in
  IRef (num_of a (field h ARITH_PARENT_POS)) [] None
  :: (if subst_too
      then map (fun i => ISubst (int_of (field h (ARITH_VAR_POS i))) (field h (ARITH_VALUE_POS i))) (range 0 n)
      else [])
  ++ map (item_ref a h) (range (cp + 1) (cp + 1 + cc)).

(** wr_strprint_one_history 1802-2372: text and JSON (tptp = false, 2019-2371) and TPTP (1948-2015);
    None: nothing is printed *)
Definition print_one (tptp : bool) (a : alist) (h c num : Z) : option line :=
  let role := decode_priority (field h PRIORITY_POS) in
  let mk r items := Some {| l_num := num; l_rule := r; l_items := items; l_name := 0;
                            l_role := role; l_clause := c |} in
  if h =? 0 then Some {| l_num := num; l_rule := RNone; l_items := []; l_name := 0; l_role := 0; l_clause := c |}
  else
    let len := rec_len h in
    if len =? PREFIX_LEN then
      Some {| l_num := num; l_rule := RIn; l_items := []; l_name := field h NAME_POS;
              l_role := role; l_clause := c |}
    else
      let head := field h TAG_POS in
      if negb (is_int head) then None
      else
        let n := int_of head in
        let tag := get_tag n in
        let p1 := get_pos1 n in
        let p2 := get_pos2 n in
        if tptp then
          let start := if tag =? T_PARA then PARA_PARENT1_POS else PARENT1_POS in
          let r := if tag =? T_RESOLVE then RMp else if tag =? T_PROPAGATE then RFmp
                   else if tag =? T_FACTORIAL then RMerge else if tag =? T_PARA then RPara
                   else if tag =? T_REFLEXIVE then RRefl else if tag =? T_SIMPLIFY then RSimp
                   else if tag =? T_PROPINST then RInst else if tag =? T_INSTGEN then RInstgen
                   else if tag =? T_ARITHINST then RArith else if tag =? T_EXTPROP then RExtprop
                   else RUnknown in
          if tag =? T_ARITHINST then mk r (items_arith false a h)
          else mk r (map (item_ref a h) (range start len))
        else if tag =? T_ARITHINST then mk RArith (items_arith true a h)
        else if tag =? T_RESOLVE then mk RMp (map (item_two a h p1 p2) (range PARENT1_POS len))
        else if tag =? T_INSTGEN then mk RInstgen (map (item_two a h p1 p2) (range PARENT1_POS len))
        else if tag =? T_PROPAGATE then mk RFmp (map (item_two a h p1 p2) (range PARENT1_POS len))
        else if tag =? T_FACTORIAL then mk RMerge (map (item_merge a h p1 p2) (range PARENT1_POS len))
        else if tag =? T_PROPINST then mk RInst (map (item_inst a h) (range PARENT1_POS len))
        else if tag =? T_EXTPROP then
          Some {| l_num := num; l_rule := RExtprop; l_items := []; l_name := 0; l_role := 0; l_clause := 0 |}
        else if tag =? T_REFLEXIVE then mk RRefl (map (item_refl a h p1) (range PARENT1_POS len))
        else if tag =? T_PARA then
          let left := negb (get_extra n =? 0) in
          let tp := path_pos (int_of (field h PATH_POS)) in
          mk RPara (map (item_para a h p1 p2 left tp) (range PARA_PARENT1_POS len))
        else if tag =? T_SIMPLIFY then mk RSimp (map (item_ref a h) (range PARENT1_POS len))
        else None.

(** wr_strprint_flat_history 1592-1608: the reversed list, oldest first *)
Definition print_flat (tptp : bool) (a : alist) : list (option line) :=
  map (fun e => print_one tptp a (cl_hist m (fst e)) (fst e) (snd e)) a.

(** wr_show_result 1445-1487 for one answer: its history [h] and clause [ans] (0: false) *)
Definition show (fuel : nat) (tptp : bool) (h ans : Z) : option (list (option line)) :=
  match flatten fuel h (1, []) with
  | None => None
  | Some (nr, a) =>
      let a := rev a in
      Some (print_flat tptp a ++ [print_one tptp a h ans nr])
  end.
End Print.
