(** The T-tree index.
    Code: Db/dbindex.c 196-420 (rotations), 428-752 (ttree_add_row), 763-1030 (ttree_remove_row),
    1043-1092 (wg_search_ttree_index), 1181-1228 and 1258-1294 (search for the rightmost and the
    leftmost bounding node), 1371-1425 (create_ttree_index); dbindex.h 87-101 (nodes);
    built with TTREE_SINGLE_COMPARE and TTREE_CHAINED_NODES (config-gcc.h 64-67).
    Simplifications:
    - the nodes reachable from the root form a tree by construction, each node with its offset
      [cid]; parent_offset is the position in the tree, so the upward walks are the returns of a
      recursion from the root; the chain of successors and predecessors and the first and last
      node are kept as the code keeps them;
    - a key is the value of the indexed field, of any type [K]; [cmp] is WG_COMPARE.  [None] stands
      for WG_ILLEGAL, whose type is -1 (dbdata.c 1429), so it compares less than every value;
    - heights are unbounded instead of unsigned char (a tree of height 256 has more than 2^170 nodes);
    - array_of_values and number_of_elements are one list;
    - [None] as the result of a whole operation stands for a read through offset 0. *)
From Coq Require Import List ZArith Bool.
Import ListNotations.
Open Scope Z_scope.

(** dballoc.h 270 *)
Definition node_size : nat := 8.
(** dbindex.h 41-43 *)
Inductive bound := Bounding | DeadLeft | DeadRight.
Definition upd1 (f : Z -> Z) (a v : Z) : Z -> Z := fun x => if x =? a then v else f x.

Section TT.
Variable K : Type.
Variable cmp : K -> K -> comparison.
Variable key : Z -> K.      (* wg_get_field(db, offsettoptr(db, row), column) *)

(** struct wg_tnode without heights and links, dbindex.h 87-101 *)
Record cell := { cid : Z; els : list Z; mn : option K; mx : option K }.
Inductive tree := E | N (c : cell) (lh rh : Z) (l r : tree).
(** The index header, dbindex.h 73-77, and the chain *)
Record ix := { tr : tree; pred : Z -> Z; succ : Z -> Z; minp : Z; maxp : Z }.
Definition with_tree (t : tree) (x : ix) : ix :=
  {| tr := t; pred := pred x; succ := succ x; minp := minp x; maxp := maxp x |}.

(** WG_COMPARE, with WG_ILLEGAL *)
Definition ocmp (a b : option K) : comparison :=
  match a, b with
  | Some a, Some b => cmp a b
  | None, None => Eq
  | None, _ => Lt
  | _, None => Gt
  end.
Definition is_lt (c : comparison) : bool := match c with Lt => true | _ => false end.
Definition is_gt (c : comparison) : bool := match c with Gt => true | _ => false end.
Definition is_eq (c : comparison) : bool := match c with Eq => true | _ => false end.
Definition field (l : option Z) : option K := option_map key l.

(** The node at an offset *)
Fixpoint find (i : Z) (t : tree) : option tree :=
  match t with
  | E => None
  | N c lh rh l r => if cid c =? i then Some t
                     else match find i l with Some u => Some u | None => find i r end
  end.
(** Writing to the node at an offset *)
Fixpoint upd (i : Z) (f : cell -> cell) (t : tree) : tree :=
  match t with
  | E => E
  | N c lh rh l r => N (if cid c =? i then f c else c) lh rh (upd i f l) (upd i f r)
  end.
(** left_child_offset = ..., right_child_offset = ... of the node at an offset *)
Fixpoint set_child (left : bool) (i : Z) (u t : tree) : tree :=
  match t with
  | E => E
  | N c lh rh l r =>
      if cid c =? i then (if left then N c lh rh u r else N c lh rh l u)
      else N c lh rh (set_child left i u l) (set_child left i u r)
  end.
Definition is_root (i : Z) (t : tree) : bool := match t with E => false | N c _ _ _ _ => cid c =? i end.
Definition is_E (t : tree) : bool := match t with E => true | _ => false end.
(** The number of nodes, to bound the walk along the chain *)
Fixpoint count (t : tree) : nat := match t with E => O | N _ _ _ l r => S (count l + count r) end.

(** wg_search_ttree_rightmost 1181-1228 *)
Fixpoint rightmost (k : K) (t : tree) (rb : option cell) : option (bound * Z) :=
  match t with
  | E => None
  | N c lh rh l r =>
      if is_lt (ocmp (Some k) (mn c)) then
        match l with
        | N _ _ _ _ _ => rightmost k l rb
        | E => match rb with
               | Some d => if is_gt (ocmp (Some k) (mx d)) then Some (DeadLeft, cid c) else Some (Bounding, cid d)
               | None => Some (DeadLeft, cid c)
               end
        end
      else
        match r with
        | N _ _ _ _ _ => rightmost k r (Some c)
        | E => if is_gt (ocmp (Some k) (mx c)) then Some (DeadRight, cid c) else Some (Bounding, cid c)
        end
  end.
(** wg_search_ttree_leftmost 1258-1294 *)
Fixpoint leftmost (k : K) (t : tree) (lb : option cell) : option (bound * Z) :=
  match t with
  | E => None
  | N c lh rh l r =>
      if is_gt (ocmp (Some k) (mx c)) then
        match r with
        | N _ _ _ _ _ => leftmost k r lb
        | E => match lb with
               | Some d => if is_lt (ocmp (Some k) (mn d)) then Some (DeadRight, cid c) else Some (Bounding, cid d)
               | None => Some (DeadRight, cid c)
               end
        end
      else
        match l with
        | N _ _ _ _ _ => leftmost k l (Some c)
        | E => if is_lt (ocmp (Some k) (mn c)) then Some (DeadLeft, cid c) else Some (Bounding, cid c)
        end
  end.

(** db_which_branch_causes_overweight 196-207 and db_rotate_ttree 209-420, without the grandparent *)
Definition ht (t : tree) : Z := match t with E => 0 | N _ lh rh _ _ => Z.max lh rh + 1 end.
Definition lone_leaf (e b : cell) (el er : tree) : bool :=      (* 301-302, 363-364 *)
  Nat.eqb (length (els e)) 1 && is_E er && is_E el && Nat.eqb (length (els b)) node_size.
Definition rotate (t : tree) : option tree :=
  match t with
  | E => None
  | N c lh rh l r =>
      if rh <? lh then
        match l with
        | E => None
        | N b blh brh bl br =>
            if brh <=? blh then                                  (* LL_CASE 217-242 *)
              Some (N b blh (Z.max brh rh + 1) bl (N c brh rh br r))
            else                                                 (* LR_CASE 269-330 *)
              match br with
              | E => None
              | N e elh erh el er =>
                  let c' := N c erh rh er r in
                  let '(b', e') :=
                    if lone_leaf e b el er then                  (* 301-319 *)
                      let es := tl (els b) ++ els e in
                      ({| cid := cid b; els := firstn 1 (els b); mn := mn b; mx := mn b |},
                       {| cid := cid e; els := es; mn := field (hd_error es); mx := mx e |})
                    else (b, e) in
                  Some (N e' (Z.max elh blh + 1) (Z.max rh erh + 1) (N b' blh elh bl el) c')
              end
        end
      else
        match r with
        | E => None
        | N b blh brh bl br =>
            if brh <? blh then                                   (* RL_CASE 332-392 *)
              match bl with
              | E => None
              | N e elh erh el er =>
                  let c' := N c lh elh l el in
                  let '(b', e') :=
                    if lone_leaf e b el er then                  (* 363-381 *)
                      let es := els e ++ removelast (els b) in
                      ({| cid := cid b; els := skipn (length (els b) - 1) (els b); mn := mx b; mx := mx b |},
                       {| cid := cid e; els := es; mn := mn e; mx := field (nth_error es (length es - 1)) |})
                    else (b, e) in
                  Some (N e' (Z.max elh lh + 1) (Z.max brh erh + 1) c' (N b' erh brh er br))
              end
            else                                                 (* RR_CASE 244-267 *)
              Some (N b (Z.max blh lh + 1) brh (N c lh blh l bl) br)
        end
  end.
Definition skewed (lh rh : Z) : bool := (1 <? lh - rh) || (lh - rh <? -1).

(** The upward walk after an insertion, 714-750.  [NotHere]: the new node is not in this subtree;
    [Grown]: the loop goes on with this subtree's root as the child; [Rotated]: the loop ended
    with a rotation here, which also sets the height in the parent (403-417); [Ended] *)
Inductive walk := NotHere | Grown | Rotated | Ended.
Definition grow_step (t : tree) : option (tree * walk) :=
  match t with
  | E => None
  | N c lh rh l r =>
      if lh - rh =? 0 then Some (t, Ended)
      else if skewed lh rh then match rotate t with None => None | Some t => Some (t, Rotated) end
      else Some (t, Grown)
  end.
Fixpoint retrace (i : Z) (t : tree) : option (tree * walk) :=
  match t with
  | E => Some (E, NotHere)
  | N c lh rh l r =>
      if cid c =? i then Some (t, Grown)
      else
        match retrace i l with
        | None => None
        | Some (l', Grown) => grow_step (N c (lh + 1) rh l' r)
        | Some (l', Rotated) => Some (N c (ht l') rh l' r, Ended)
        | Some (l', Ended) => Some (N c lh rh l' r, Ended)
        | Some (_, NotHere) =>
            match retrace i r with
            | None => None
            | Some (r', Grown) => grow_step (N c lh (rh + 1) l r')
            | Some (r', Rotated) => Some (N c lh (ht r') l r', Ended)
            | Some (r', Ended) => Some (N c lh rh l r', Ended)
            | Some (_, NotHere) => Some (t, NotHere)
            end
        end
  end.

(** The chain: 580-593 and 673-688 (new node before [b]), 599-617 and 691-706 (after [b]) *)
Definition link_before (b f : Z) (x : ix) : ix :=
  let p := pred x b in
  {| tr := tr x; pred := upd1 (upd1 (pred x) f p) b f;
     succ := if p =? 0 then upd1 (succ x) f b else upd1 (upd1 (succ x) f b) p f;
     minp := if p =? 0 then f else minp x; maxp := maxp x |}.
Definition link_after (b f : Z) (x : ix) : ix :=
  let s := succ x b in
  {| tr := tr x; succ := upd1 (upd1 (succ x) f s) b f;
     pred := if s =? 0 then upd1 (pred x) f b else upd1 (upd1 (pred x) f b) s f;
     minp := minp x; maxp := if s =? 0 then f else maxp x |}.
(** 892-908 and 970-986 *)
Definition unlink (i : Z) (x : ix) : ix :=
  let s := succ x i in let p := pred x i in
  {| tr := tr x;
     pred := if s =? 0 then pred x else upd1 (pred x) s p;
     succ := if p =? 0 then succ x else upd1 (succ x) p s;
     minp := if p =? 0 then s else minp x;
     maxp := if s =? 0 then p else maxp x |}.

(** 464-485: the first position whose value is not less *)
Fixpoint first_ge (k : K) (l : list Z) : nat :=
  match l with
  | [] => O
  | e :: l => if is_lt (cmp (key e) k) then S (first_ge k l) else O
  end.
(** 458-496 *)
Definition ins_lo (k : K) (r : Z) (c : cell) : cell :=
  let i := first_ge k (els c) in
  {| cid := cid c; els := firstn i (els c) ++ r :: skipn i (els c);
     mn := if Nat.eqb i 0 then Some k else mn c; mx := mx c |}.
(** 511-521: the last position from [n] down, or 0, whose value is not greater *)
Fixpoint last_le (k : K) (l : list Z) (n : nat) : nat :=
  match n with
  | O => O
  | S m => if is_gt (ocmp (field (nth_error l n)) (Some k)) then last_le k l m else n
  end.
(** 498-539: a full node, whose first row is pushed out *)
Definition ins_full (k : K) (r : Z) (c : cell) : cell :=
  let i := last_le k (els c) (node_size - 1) in
  let es := firstn i (tl (els c)) ++ r :: skipn (S i) (els c) in
  {| cid := cid c; els := es;
     mn := if Nat.eqb i 0 then Some k else field (hd_error es);
     mx := if Nat.eqb i 0 then mx c else if Nat.eqb i (node_size - 1) then Some k else mx c |}.
(** 552-557 *)
Definition append (r : Z) (k : option K) (c : cell) : cell :=
  {| cid := cid c; els := els c ++ [r]; mn := mn c; mx := k |}.
(** 627-653 *)
Definition ins_end (left : bool) (k : K) (r : Z) (c : cell) : cell :=
  let only := Nat.eqb (length (els c)) 0 in
  {| cid := cid c; els := if left then r :: els c else els c ++ [r];
     mn := if left || only then Some k else mn c;
     mx := if negb left || only then Some k else mx c |}.
(** 563-572, 659-668 *)
Definition new_leaf (f r : Z) (k : option K) : tree :=
  N {| cid := f; els := [r]; mn := k; mx := k |} 0 0 E E.
(** 714-751 *)
Definition finish (f : Z) (x : ix) : option (ix * Z) :=
  match retrace f (tr x) with
  | None => None
  | Some (t, _) => Some (with_tree t x, 0)
  end.

(** ttree_add_row 428-752; [f] is what wg_alloc_fixlen_object returns if it is called, 0 for failure *)
Definition add_row (x : ix) (r f : Z) : option (ix * Z) :=
  let k := key r in
  match rightmost k (tr x) None with
  | None => None
  | Some (Bounding, b) =>
      match find b (tr x) with
      | Some (N c _ _ l _) =>
          if Nat.ltb (length (els c)) node_size then
            Some (with_tree (upd b (ins_lo k r) (tr x)) x, 0)
          else
            match els c with
            | [] => None
            | m :: _ =>
                let t1 := upd b (ins_full k r) (tr x) in
                let g := if is_E l then b else pred x b in         (* 542-549 *)
                match find g t1 with
                | Some (N d _ _ _ _) =>
                    if Nat.ltb (length (els d)) node_size then
                      Some (with_tree (upd g (append m (mn c)) t1) x, 0)
                    else if f =? 0 then Some (with_tree t1 x, -1)  (* 562 *)
                    else if b =? g then
                      finish f (link_before b f (with_tree (set_child true b (new_leaf f m (mn c)) t1) x))
                    else
                      let t2 := set_child false g (new_leaf f m (mn c)) t1 in
                      if succ x g =? 0 then Some (with_tree t2 x, -1)  (* 605-608 *)
                      else finish f (link_after g f (with_tree t2 x))
                | _ => None
                end
            end
      | _ => None
      end
  | Some (d, b) =>
      let left := match d with DeadLeft => true | _ => false end in
      match find b (tr x) with
      | Some (N c _ _ _ _) =>
          if Nat.ltb (length (els c)) node_size then
            Some (with_tree (upd b (ins_end left k r) (tr x)) x, 0)
          else if f =? 0 then Some (x, -1)                         (* 658 *)
          else
            let t1 := set_child left b (new_leaf f r (Some k)) (tr x) in
            finish f ((if left then link_before b f else link_after b f) (with_tree t1 x))
      | _ => None
      end
  end.

(** The walk along the chain, 801-814 and 1071-1089: the first node for which [here] holds, not
    going to a node that starts above [k]; [Some None] if there is none *)
Fixpoint scan (n : nat) (here : cell -> bool) (x : ix) (k : K) (i : Z) : option (option cell) :=
  match n with
  | O => None
  | S n =>
      match find i (tr x) with
      | Some (N c _ _ _ _) =>
          if here c then Some (Some c)
          else
            let s := succ x i in
            if s =? 0 then Some None
            else match find s (tr x) with
                 | Some (N d _ _ _ _) => if is_gt (ocmp (mn d) (Some k)) then Some None else scan n here x k s
                 | _ => None
                 end
      | _ => None
      end
  end.
(** 820-838 *)
Fixpoint index_of (r : Z) (l : list Z) : nat :=
  match l with
  | [] => O
  | e :: l => if e =? r then O else S (index_of r l)
  end.
Definition del_at (r : Z) (c : cell) : cell :=
  let i := index_of r (els c) in
  let es := firstn i (els c) ++ skipn (S i) (els c) in
  let n := length es in
  {| cid := cid c; els := es;
     mn := if Nat.eqb i n && negb (Nat.eqb n 0) then mn c
           else if Nat.eqb i 0 && negb (Nat.eqb n 0) then field (hd_error es) else mn c;
     mx := if Nat.eqb i n && negb (Nat.eqb n 0) then field (nth_error es (n - 1)) else mx c |}.
(** 852-862: one row [v] with value [k] taken over from the node before *)
Definition take_over (v : Z) (k : option K) (c : cell) : cell :=
  {| cid := cid c; els := v :: els c; mn := k; mx := if Nat.eqb (length (els c)) 0 then k else mx c |}.
(** 863-869 *)
Definition give_last (c : cell) : cell :=
  let es := removelast (els c) in
  {| cid := cid c; els := es; mn := mn c;
     mx := if Nat.eqb (length es) 0 then mx c else field (nth_error es (length es - 1)) |}.
(** The parent of a node: 882-890 (child cut off), 989-994 (height of the child set to 1) *)
Fixpoint at_parent (i : Z) (cut : bool) (t : tree) : tree :=
  match t with
  | E => E
  | N c lh rh l r =>
      if is_root i l then (if cut then N c 0 rh E r else N c 1 rh l r)
      else if is_root i r then (if cut then N c lh 0 l E else N c lh 1 l r)
      else N c lh rh (at_parent i cut l) (at_parent i cut r)
  end.
Fixpoint parent_of (i : Z) (t : tree) : option Z :=
  match t with
  | E => None
  | N c lh rh l r =>
      if is_root i l || is_root i r then Some (cid c)
      else match parent_of i l with Some p => Some p | None => parent_of i r end
  end.
(** One round of the loop 1003-1027 and, after a rotation, the round at the new root of the
    subtree; [None] also if that one needs another rotation *)
Definition rebal_step (t : tree) : option tree :=
  match t with
  | E => None
  | N c lh rh l r =>
      if skewed lh rh then
        match rotate t with
        | Some (N d dl dr l' r') => if skewed dl dr then None else Some (N d dl dr l' r')
        | _ => None
        end
      else Some t
  end.
(** 1001-1028, from the node at [p] up; the flag tells if the node was found *)
Fixpoint rebal (p : Z) (t : tree) : option (tree * bool) :=
  match t with
  | E => Some (E, false)
  | N c lh rh l r =>
      if cid c =? p then match rebal_step t with None => None | Some t => Some (t, true) end
      else
        match rebal p l with
        | None => None
        | Some (l', true) => match rebal_step (N c (ht l') rh l' r) with None => None | Some t => Some (t, true) end
        | Some (_, false) =>
            match rebal p r with
            | None => None
            | Some (r', true) => match rebal_step (N c lh (ht r') l r') with None => None | Some t => Some (t, true) end
            | Some (_, false) => Some (t, false)
            end
        end
  end.
Definition rebalance (p : option Z) (x : ix) : option (ix * Z) :=
  match p with
  | None => Some (x, 0)
  | Some p => match rebal p (tr x) with None => None | Some (t, _) => Some (with_tree t x, 0) end
  end.
(** 943-969: the rows of the child are moved into the node, and the child is dropped *)
Definition merge_left (d c : cell) : cell :=
  {| cid := cid c; els := els d ++ els c; mn := mn d; mx := if Nat.eqb (length (els c)) 0 then mx d else mx c |}.
Definition merge_right (d c : cell) : cell :=
  {| cid := cid c; els := els c ++ els d; mx := mx d; mn := if Nat.eqb (length (els c)) 0 then mn d else mn c |}.
Fixpoint drop_child (left : bool) (i : Z) (t : tree) : tree :=
  match t with
  | E => E
  | N c lh rh l r =>
      if cid c =? i then (if left then N c 0 rh E r else N c lh 0 l E)
      else N c lh rh (drop_child left i l) (drop_child left i r)
  end.
Definition root_id (t : tree) : Z := match t with E => 0 | N c _ _ _ _ => cid c end.

(** 875-1029, [j] the node that lost a row *)
Definition shrink (j : Z) (x : ix) : option (ix * Z) :=
  match find j (tr x) with
  | Some (N c lh rh l r) =>
      match l, r with
      | E, E =>
          if Nat.eqb (length (els c)) 0 then
            if root_id (tr x) =? j then                              (* 912-919 *)
              let y := unlink j x in
              Some ({| tr := upd j (fun c => {| cid := cid c; els := els c; mn := None; mx := None |}) (tr y);
                       pred := pred y; succ := succ y; minp := j; maxp := j |}, 0)
            else rebalance (parent_of j (tr x)) (unlink j (with_tree (at_parent j true (tr x)) x))
          else Some (x, 0)
      | N d dl dr _ _, E =>
          if negb ((dl =? 0) && (dr =? 0)) then Some (x, -4)         (* 937-941 *)
          else if Nat.leb (length (els c) + length (els d)) node_size then
            let t1 := drop_child true j (upd j (merge_left d) (tr x)) in
            rebalance (parent_of j (tr x)) (unlink (cid d) (with_tree (at_parent j false t1) x))
          else Some (x, 0)
      | E, N d dl dr _ _ =>
          if negb ((dl =? 0) && (dr =? 0)) then Some (x, -4)
          else if Nat.leb (length (els c) + length (els d)) node_size then
            let t1 := drop_child false j (upd j (merge_right d) (tr x)) in
            rebalance (parent_of j (tr x)) (unlink (cid d) (with_tree (at_parent j false t1) x))
          else Some (x, 0)
      | _, _ => Some (x, 0)
      end
  | _ => None
  end.
(** ttree_remove_row 763-1030 *)
Definition has_row (r : Z) (c : cell) : bool := existsb (Z.eqb r) (els c).
Definition remove_row (x : ix) (r : Z) : option (ix * Z) :=
  let k := key r in
  match leftmost k (tr x) None with
  | None => None
  | Some (Bounding, b) =>
      match scan (count (tr x)) (has_row r) x k b with
      | None => None
      | Some None => Some (x, -3)
      | Some (Some c) =>
          let i := cid c in
          let t1 := upd i (del_at r) (tr x) in
          match find i t1 with
          | Some (N c1 _ _ l1 r1) =>
              if Nat.ltb (length (els c1)) 5 && negb (is_E l1) && negb (is_E r1) then   (* 841-872 *)
                let g := pred x i in
                match find g t1 with
                | Some (N d _ _ _ _) =>
                    match nth_error (els d) (length (els d) - 1) with
                    | None => None
                    | Some v => shrink g (with_tree (upd g give_last (upd i (take_over v (mx d)) t1)) x)
                    end
                | _ => None
                end
              else shrink i (with_tree t1 x)
          | _ => None
          end
      end
  | Some _ => Some (x, -2)                                           (* 794 *)
  end.

(** wg_search_ttree_index 1043-1092; 0 when there is no row *)
Definition search_index (x : ix) (k : K) : option Z :=
  match leftmost k (tr x) None with
  | None => None
  | Some (Bounding, b) =>
      let hit e := is_eq (cmp (key e) k) in
      match scan (count (tr x)) (fun c => existsb hit (els c)) x k b with
      | None => None
      | Some None => Some 0
      | Some (Some c) => List.find hit (els c)
      end
  | Some _ => Some 0
  end.

(** 1382-1401: a new index, [root] the offset of its only node *)
Definition new_index (root : Z) : ix :=
  {| tr := N {| cid := root; els := []; mn := None; mx := None |} 0 0 E E;
     pred := fun _ => 0; succ := fun _ => 0; minp := root; maxp := root |}.
End TT.
