(** Which literals of a clause may be resolved upon.
    Code: Reasoner/strat.c 324-634 (wr_calc_clause_resolvability, built without EQ_PREFER),
    1487-1636 (wr_calc_clause_knuthbendix_resolvability), 1649-1719 (weights and variables of the
    literals), 1736-1762 (weight), 1776-1831 (lexicographic comparison), 1833-1932 (constants,
    built without OCC_LEX_ORDER); strat.h 35 (MIN_HARDNESS).
    Simplifications:
    - atoms are trees as in Terms; [word], [is_uri] and [uid] give the encoded word, the type and
      the id field of a constant, any functions; pointer comparisons x==y of records only skip work;
    - [ans] and [spc] are the answers of wr_answer_lit and wr_specialcomp_lit (build.c 766-880);
    - [hard] is wr_calc_atom_hardness (719-812), any function;
    - the list of marks is tmp_resolvability_vec from position 1 on; storing in it does not fail;
    - a list of variables that is NULL (1690, 1706) is an empty list;
    - weights are unbounded instead of [int]. *)
From Coq Require Import List ZArith Bool.
From Verif Require Import Terms OrdModel.
Import ListNotations.
Open Scope Z_scope.

Record lit := { neg : bool; ans : bool; spc : bool; atom : term }.
(** The strategy flags, glb.h: knuthbendixpref_strat, negpref_strat, pospref_strat, hyperres_strat,
    queryfocus_strat, hardnesspref_strat *)
Record flags := { kb : bool; negpref : bool; pospref : bool; hyper : bool; qfocus : bool; hardpref : bool }.
Definition min_hardness : Z := -100000000.

Section Sel.
Variable word : cst -> Z.
Variable is_uri : cst -> bool.
Variable uid : cst -> Z.
Variable hard : bool -> term -> Z.

(** * The ordering of atoms *)
(** wr_order_atom_weight_vars 1736-1762 *)
Fixpoint atom_weight (t : term) (l : vlist) : Z * vlist :=
  match t with
  | TVar i => (1, record_varocc i l)
  | TCst _ => (1, l)
  | TRec fs =>
      (fix loop (fs : list term) (w : Z) (l : vlist) : Z * vlist :=
         match fs with
         | [] => (w, l)
         | f :: fs => let '(x, l) := atom_weight f l in loop fs (w + x) l
         end) fs 0 l
  end.
(** wr_order_atoms_const_lex_smaller 1833-1932 *)
Definition const_smaller (c d : cst) : bool :=
  if is_uri c && is_uri d then uid c <? uid d else word d <? word c.
(** wr_order_atoms_lex_order 1776-1831: 0 equal, 1 x smaller, 2 y smaller, 3 not comparable *)
Fixpoint atoms_lex (x y : term) : Z :=
  match x, y with
  | TVar i, TVar j => if i =? j then 0 else 3
  | TVar _, _ => 3
  | _, TVar _ => 3
  | TCst c, TCst d => if word c =? word d then 0 else if const_smaller c d then 1 else 2
  | TCst _, TRec _ => 1
  | TRec _, TCst _ => 2
  | TRec fs, TRec gs =>
      if Nat.ltb (length fs) (length gs) then 1
      else if Nat.ltb (length gs) (length fs) then 2
      else (fix loop (xs ys : list term) : Z :=
              match xs, ys with
              | x :: xs, y :: ys => let r := atoms_lex x y in if r =? 0 then loop xs ys else r
              | _, _ => 0
              end) fs gs
  end.

(** wr_calc_clause_size_countedvarlist 1669-1713: weight -1 is [None] *)
Definition info (l : lit) : option (Z * vlist * term) :=
  if ans l || spc l then None
  else let '(w, vs) := atom_weight (atom l) empty_vl in Some (w, vs, atom l).
(** 1599-1620: 1 the first is bigger, 2 the second, 3 neither *)
Definition compare_lits (x y : Z * vlist * term) : Z :=
  let '(xw, xl, xa) := x in
  let '(yw, yl, ya) := y in
  if (yw <? xw) && subset yl xl then 1
  else if (xw <? yw) && subset xl yl then 2
  else if xw =? yw then
    if (atoms_lex xa ya =? 2) && subset yl xl then 1
    else if (atoms_lex xa ya =? 1) && subset xl yl then 2
    else 3
  else 3.
Definition mark (m : nat -> bool) (i : nat) (v : bool) : nat -> bool := fun j => if Nat.eqb j i then v else m j.
(** The loop on j, 1537-1631 *)
Fixpoint kb_inner (i : nat) (x : Z * vlist * term) (ys : list (option (Z * vlist * term))) (j : nat) (m : nat -> bool) : nat -> bool :=
  match ys with
  | [] => m
  | y :: ys =>
      let m :=
        if negb (m j) then m
        else match y with
             | None => mark m j false
             | Some y => let r := compare_lits x y in
                         if r =? 1 then mark m j false else if r =? 2 then mark m i false else m
             end in
      kb_inner i x ys (S j) m
  end.
(** The loop on i, 1528-1632 *)
Fixpoint kb_outer (xs : list (option (Z * vlist * term))) (i : nat) (m : nat -> bool) : nat -> bool :=
  match xs with
  | [] => m
  | x :: xs =>
      let m := match x with
               | None => mark m i false
               | Some x => kb_inner i x xs (S i) m
               end in
      kb_outer xs (S i) m
  end.
(** wr_calc_clause_knuthbendix_resolvability 1487-1636 *)
Definition kb_select (cl : list lit) : list bool :=
  if Nat.eqb (length cl) 1 then [true]
  else map (kb_outer (map info cl) 0 (fun _ => true)) (seq 0 (length cl)).

(** * The other strategies *)
(** 371-379, 400-406: is there a negative literal, a positive one, answers left out *)
Definition has_neg (cl : list lit) : bool := existsb (fun l => negb (ans l) && neg l) cl.
Definition has_pos (cl : list lit) : bool := existsb (fun l => negb (ans l) && negb (neg l)) cl.
(** 434-461: is the hardness of the literal computed; its entry in tmp_hardnessinf_vec *)
Definition computed (s : flags) (l : lit) : bool :=
  if neg l then negpref s || qfocus s || hardpref s || hyper s else pospref s || qfocus s || hardpref s.
Definition hardness (s : flags) (l : lit) : Z :=
  if computed s l then hard (negb (neg l)) (atom l) else -1000.
(** 428-462: the largest one among the literals chosen by [p] *)
Definition max_hard (s : flags) (p : lit -> bool) (cl : list lit) : Z :=
  fold_left (fun m l => if negb (ans l) && negb (spc l) && computed s l && p l && (m <? hardness s l) then hardness s l else m)
            cl min_hardness.

(** 483-632, with the flag allowedflag: the mark of a literal, and the flag after it *)
Definition once (flag : bool) : bool * bool := if flag then (false, flag) else (true, true).
Definition mark_lit (s : flags) (allowall hyperpartial : bool) (cl : list lit) (flag : bool) (l : lit) : bool * bool :=
  let h := hardness s l in
  let maxn := max_hard s neg cl in
  let maxp := max_hard s (fun l => negb (neg l)) cl in
  let maxa := max_hard s (fun _ => true) cl in
  if ans l then (false, flag)
  else if spc l then (true, flag)
  else if allowall then (true, flag)
  else if negpref s then
    if negb (neg l) then
      if has_neg cl then (false, flag)
      else if qfocus s then (if flag || (h <? maxp) then (false, flag) else (true, true))
      else (true, true)
    else if h <? maxn then (false, flag) else once flag
  else if pospref s then
    if neg l then
      if has_pos cl then (false, flag)
      else if qfocus s then (if flag || (h <? maxn) then (false, flag) else (true, true))
      else (true, true)
    else if h <? maxp then (false, flag) else once flag
  else if qfocus s then
    if h <? maxa then (false, flag) else once flag
  else if hyper s && hyperpartial && has_neg cl then
    if negb (neg l) then (false, flag)
    else if h <? maxn then (false, flag) else once flag
  else if hardpref s then
    if h <? maxa then (false, flag) else once flag
  else (true, flag).
Fixpoint mark_all (s : flags) (allowall hyperpartial : bool) (cl : list lit) (flag : bool) (ls : list lit) : list bool :=
  match ls with
  | [] => []
  | l :: ls => let '(r, flag) := mark_lit s allowall hyperpartial cl flag l in
               r :: mark_all s allowall hyperpartial cl flag ls
  end.

(** wr_calc_clause_resolvability 324-634 *)
Definition select (s : flags) (allowall hyperpartial : bool) (cl : list lit) : list bool :=
  if Nat.eqb (length cl) 1 then [true]
  else if negb allowall && kb s then kb_select cl
  else if negb allowall && hyper s && has_neg cl && negb hyperpartial then map neg cl      (* 365-390, 409-424 *)
  else if negb allowall && negb (has_neg cl) && (negpref s || hyper s) then kb_select cl
  else if negb allowall && negb (has_pos cl) && pospref s then kb_select cl
  else mark_all s allowall hyperpartial cl false cl.
End Sel.
