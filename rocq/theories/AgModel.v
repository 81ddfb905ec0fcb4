(** Bounded numeric instantiation: settings, candidate numbers, duplicate cache and the loop
    that tries numbers.  Code: Reasoner/arithinst.c, Reasoner/rgenloop.c 363-369.
    Simplifications: which built-in a term is (wr_computable_termptr, build.c 978-1060), what
    number a constant is and floating point arithmetic are parameters; the fields [comp],
    [literal], [negative] and [origin] are never read and dropped, as are statistics other than
    the number of probes; [int] counters do not overflow; what a probe leads to (arithinst.c
    798-855 after the cache, see InstModel) is a parameter [ask]; a record of a built-in that lacks
    an argument is treated as having no number there (the code reads past its end). *)
From Coq Require Import List ZArith Bool.
From Verif Require Import Terms MatchModel MetaModel.
Import ListNotations.
Open Scope Z_scope.

(** arithinst.h 11-16. *)
Definition max_frontiers := 32.
Definition max_clause_vars := 32.
Definition max_local := 32.
Definition max_global := 32.
Definition cache_size := 4096.

(** ** Settings *)
(** The strategy settings; [explicit] = arith_inst_explicit_mask. *)
Record conf := { mode : Z; max_vars : Z; cand_limit : Z; probe_limit : Z; keep_limit : Z; depth_limit : Z;
                 global_limit : Z; explicit : Z }.
Definition given (c : conf) (bit : Z) : bool := negb (Z.land (explicit c) bit =? 0).
Definition clamp (lo hi x : Z) : Z := if x <? lo then lo else if hi <? x then hi else x.
(** wr_arithinst_configure, arithinst.c 33-81. *)
Definition configure (c : conf) : conf :=
  let m := clamp 0 2 (mode c) in
  let dflt bit old two one := if given c bit then old else if m =? 2 then two else one in
  {| mode := m;
     max_vars := clamp 1 2 (dflt 1 (max_vars c) 2 1);
     cand_limit := clamp 1 max_local (dflt 2 (cand_limit c) 6 4);
     probe_limit := clamp 1 1024 (dflt 4 (probe_limit c) 32 16);
     keep_limit := clamp 1 64 (dflt 8 (keep_limit c) 4 2);
     depth_limit := clamp 1 16 (dflt 16 (depth_limit c) 2 1);
     global_limit := clamp 1 1000000 (global_limit c);
     explicit := explicit c |}.
(** wr_glb_init_simple, glb.c 246-253. *)
Definition init_conf : conf :=
  {| mode := 1; max_vars := 1; cand_limit := 4; probe_limit := 16; keep_limit := 2; depth_limit := 1;
     global_limit := 1000; explicit := 0 |}.

(** ** Numbers *)
(** wr_arith_value: an integer or a finite double; doubles in units of 2^-1074, -0.0 is turned
    into 0.0 before a value is stored (arithinst.c 161, 199, 213). *)
Inductive num := NInt (z : Z) | NReal (r : Z).
Record cand := { cnum : num; crank : Z }.
(** wr_arith_value_equal, 118-124. *)
Definition num_eqb (a b : num) : bool :=
  match a, b with NInt x, NInt y => x =? y | NReal x, NReal y => x =? y | _, _ => false end.

(** wr_arith_add_value 126-153, wr_arith_add_real 155-182: a known value only gets the better rank. *)
Fixpoint better (v : num) (rank : Z) (l : list cand) : option (list cand) :=
  match l with
  | [] => None
  | c :: l' =>
      if num_eqb (cnum c) v then Some ({| cnum := cnum c; crank := if rank <? crank c then rank else crank c |} :: l')
      else option_map (cons c) (better v rank l')
  end.
Definition add_value (v : num) (rank : Z) (l : list cand) : list cand :=
  match better v rank l with
  | Some l' => l'
  | None => if max_local <=? Z.of_nat (length l) then l else l ++ [{| cnum := v; crank := rank |}]
  end.
Definition add_value_opt (v : option num) (rank : Z) (l : list cand) : list cand :=
  match v with Some v => add_value v rank l | None => l end.

(** wr_arith_checked_add/sub, 105-116: sums out of range are not made. *)
Definition in64 (z : Z) : bool := (- 2 ^ 63 <=? z) && (z <? 2 ^ 63).
Definition checked (z : Z) : option num := if in64 z then Some (NInt z) else None.

(** wr_arith_value_cmp, 474-488: by rank, absolute value, kind, value.  A long double holds
    every 64-bit integer and every double. *)
Definition units (v : num) : Z := match v with NInt z => z * 2 ^ 1074 | NReal r => r end.
Definition kind (v : num) : Z := match v with NInt _ => 1 | NReal _ => 2 end.
Definition cand_ltb (a b : cand) : bool :=
  if negb (crank a =? crank b) then crank a <? crank b
  else if negb (Z.abs (units (cnum a)) =? Z.abs (units (cnum b))) then Z.abs (units (cnum a)) <? Z.abs (units (cnum b))
  else if negb (kind (cnum a) =? kind (cnum b)) then kind (cnum a) <? kind (cnum b)
  else units (cnum a) <? units (cnum b).
(** wr_arith_sort_values, 490-499: insertion sort; [put_back x l] for the reversed sorted part [l]. *)
Fixpoint put_back (x : cand) (l : list cand) : list cand :=
  match l with [] => [x] | y :: l' => if cand_ltb x y then y :: put_back x l' else x :: l end.
Definition sort_values (l : list cand) : list cand := rev (fold_left (fun acc x => put_back x acc) l []).

(** wr_arith_global_add, 501-523. *)
Fixpoint replace_nth (n : nat) (x : cand) (l : list cand) : list cand :=
  match l, n with [], _ => [] | _ :: l', O => x :: l' | y :: l', S n' => y :: replace_nth n' x l' end.
Definition no_cand : cand := {| cnum := NInt 0; crank := 0 |}.
Fixpoint worst_from (l : list cand) (i : nat) (w : nat) (all : list cand) : nat :=
  match l with
  | [] => w
  | x :: l' => worst_from l' (S i) (if cand_ltb (nth w all no_cand) x then i else w) all
  end.
Definition global_add (v : num) (rank : Z) (l : list cand) : list cand :=
  match better v rank l with
  | Some l' => l'
  | None =>
      let c := {| cnum := v; crank := rank |} in
      if Z.of_nat (length l) <? max_global then l ++ [c]
      else let w := worst_from (tl l) 1 0 l in
           if cand_ltb c (nth w l no_cand) then replace_nth w c l else l
  end.

(** ** The scan of a clause *)
Inductive comp := NoComp | CPlus | CMinus | CMult | CCompare | CUminus | COtherArith | CEqual | COther.
(** wr_computation_is_arithmetic, build.c 1129-1160. *)
Definition arith (c : comp) : bool :=
  match c with CPlus | CMinus | CMult | CCompare | CUminus | COtherArith => true | _ => false end.

(** Floating point operations; [None]: not finite. *)
Record fops := { f_of : Z -> Z; f_add : Z -> Z -> option Z; f_sub : Z -> Z -> option Z; f_mid : Z -> Z -> option Z;
                 f_div : Z -> Z -> option Z; f_one : Z }.

Record scan := { fronts : list (list Z); svars : list (Z * bool); vals : list cand }.
Definition set_vals (s : scan) (v : list cand) : scan := {| fronts := fronts s; svars := svars s; vals := v |}.

Section Ag.
  Variable code : term -> comp.             (* wr_computable_termptr *)
  Variable numc : cst -> option num.        (* the number a constant is *)
  Variable answer : term -> bool.           (* wr_answer_lit *)
  Variable fo : fops.

  (** wr_arith_decode_number, 184-222. *)
  Fixpoint decode (t : term) : option num :=
    match t with
    | TVar _ => None
    | TCst c => numc c
    | TRec fs =>
        match code t, fs with
        | CUminus, _ :: a :: _ =>
            match decode a with
            | Some (NInt z) => checked (- z)
            | Some (NReal r) => Some (NReal (- r))
            | None => None
            end
        | _, _ => None
        end
    end.

  (** wr_arith_scan_var_index, 224-231. *)
  Definition known_var (v : Z) (l : list (Z * bool)) : bool := existsb (fun p => fst p =? v) l.
  Definition note_var (v : Z) (s : scan) : scan :=
    if known_var v (svars s) || (max_clause_vars <=? Z.of_nat (length (svars s))) then s
    else {| fronts := fronts s; svars := svars s ++ [(v, false)]; vals := vals s |}.

  (** wr_arith_collect_vars, 233-250. *)
  Fixpoint collect (mx : Z) (t : term) (a : list Z * scan) : list Z * scan :=
    match t with
    | TVar v =>
        let s := note_var v (snd a) in
        if existsb (Z.eqb v) (fst a) then (fst a, s)
        else if Z.of_nat (length (fst a)) <? mx then (fst a ++ [v], s) else (fst a, s)
    | TCst _ => a
    | TRec fs => fold_left (fun a f => collect mx f a) fs a
    end.

  (** wr_arith_add_number, 252-271, for a number of the clause: rank 40, its neighbours 35. *)
  Definition add_number (v : num) (s : scan) : scan :=
    set_vals s
      match v with
      | NInt z => add_value_opt (checked (z + 1)) 35 (add_value_opt (checked (z - 1)) 35 (add_value v 40 (vals s)))
      | NReal _ => add_value v 40 (vals s)
      end.
  Definition real_opt (r : option Z) : option num := option_map NReal r.
  (** wr_arith_add_boundary, 273-293. *)
  Definition add_boundary (v : num) (s : scan) : scan :=
    set_vals s
      match v with
      | NInt z => add_value_opt (checked (z + 1)) 30 (add_value_opt (checked (z - 1)) 30 (add_value v 20 (vals s)))
      | NReal r => add_value_opt (real_opt (f_add fo r (f_one fo))) 30
                     (add_value_opt (real_opt (f_sub fo r (f_one fo))) 30 (add_value v 20 (vals s)))
      end.
  Definition add_boundary_opt (v : option num) (s : scan) : scan := match v with Some v => add_boundary v s | None => s end.

  Definition same_vars (a b : list Z) : bool := if list_eq_dec Z.eq_dec a b then true else false.
  (** wr_arith_add_frontier, 295-320. *)
  Definition add_frontier (t : term) (s0 : scan) : scan :=
    let '(vs, s) := collect max_clause_vars t ([], s0) in
    if (Z.of_nat (length vs) <? 1) || (2 <? Z.of_nat (length vs)) then s
    else if existsb (same_vars vs) (fronts s) then s
    else if max_frontiers <=? Z.of_nat (length (fronts s)) then s
    else {| fronts := fronts s ++ [vs]; svars := svars s; vals := vals s |}.

  Definition arg (i : nat) (t : term) : option term := match t with TRec fs => nth_error fs i | _ => None end.
  Definition decode_arg (i : nat) (t : term) : option num :=
    match arg i t with Some a => decode a | None => None end.
  (** wr_arith_scan_comparison, 322-330. *)
  Definition scan_comparison (t : term) (s : scan) : scan :=
    add_boundary_opt (decode_arg 2 t) (add_boundary_opt (decode_arg 1 t) s).

  (** wr_arith_scan_term, 332-357. *)
  Fixpoint scan_term (t : term) (s : scan) : scan :=
    match decode t with
    | Some v => add_number v s
    | None =>
        match t with
        | TVar v => note_var v s
        | TCst _ => s
        | TRec fs =>
            let s1 := if arith (code t) then add_frontier t s else s in
            let s2 := match code t with CCompare => scan_comparison t s1 | _ => s1 end in
            fold_left (fun s f => scan_term f s) fs s2
        end
    end.

  (** wr_arith_inverse_expression, 359-421. *)
  Definition is_tvar (t : option term) : bool := match t with Some (TVar _) => true | _ => false end.
  Definition to_real (v : num) : Z := match v with NInt z => f_of fo z | NReal r => r end.
  Definition inverse_int (c : comp) (swapped : bool) (t k : Z) : option num :=
    match c with
    | CPlus => checked (t - k)
    | CMinus => if swapped then checked (k - t) else checked (t + k)
    | CMult =>
        if negb (k =? 0) && negb ((t =? - 2 ^ 63) && (k =? -1)) && (Z.rem t k =? 0) then Some (NInt (Z.quot t k)) else None
    | _ => None
    end.
  Definition inverse_real (c : comp) (swapped : bool) (t k : Z) : option num :=
    real_opt
      match c with
      | CPlus => f_sub fo t k
      | CMinus => if swapped then f_sub fo k t else f_add fo t k
      | _ => if k =? 0 then None else f_div fo t k
      end.
  Definition inverse (e : term) (target : num) (s0 : scan) : scan :=
    match code e with
    | CPlus | CMinus | CMult =>
        let '(vs, s) := collect 3 e ([], s0) in
        if negb (Z.of_nat (length vs) =? 1) then s
        else
          let one swapped k :=
            set_vals s (add_value_opt
              (match target, k with
               | NInt t, NInt k => inverse_int (code e) swapped t k
               | _, _ => inverse_real (code e) swapped (to_real target) (to_real k)
               end) 10 (vals s)) in
          match (if is_tvar (arg 1 e) then decode_arg 2 e else None) with
          | Some k => one false k
          | None => match (if is_tvar (arg 2 e) then decode_arg 1 e else None) with
                    | Some k => one true k
                    | None => s
                    end
          end
    | _ => s0
    end.
  Definition inverse_opt (e : option term) (target : option num) (s : scan) : scan :=
    match e, target with Some (TRec fs), Some v => inverse (TRec fs) v s | _, _ => s end.
  (** wr_arith_scan_equality_hints, 423-435. *)
  Definition scan_hints (t : term) (s : scan) : scan :=
    match t, code t with
    | TRec _, CEqual => inverse_opt (arg 2 t) (decode_arg 1 t) (inverse_opt (arg 1 t) (decode_arg 2 t) s)
    | _, _ => s
    end.

  (** wr_arith_mark_direct_bindable, 437-452. *)
  Definition mark_var (v : Z) (s0 : scan) : scan :=
    let s := note_var v s0 in
    {| fronts := fronts s; svars := map (fun p => if fst p =? v then (fst p, true) else p) (svars s); vals := vals s |}.
  Definition mark (t : term) (s : scan) : scan :=
    match t with
    | TRec fs =>
        if answer t then s
        else match code t with
             | NoComp => fold_left (fun s f => match f with TVar v => mark_var v s | _ => s end) fs s
             | _ => s
             end
    | _ => s
    end.

  (** wr_arith_scan_clause, 454-472. *)
  Definition scan_lit (s : scan) (t : term) : scan := mark t (scan_hints t (scan_term t s)).
  Definition scan_clause (atoms : list term) : scan := fold_left scan_lit atoms {| fronts := []; svars := []; vals := [] |}.

  (** wr_arith_complete_candidates, 525-555: the candidates and the new global list. *)
  Fixpoint first_real (l : list cand) : option (Z * list cand) :=
    match l with
    | [] => None
    | c :: l' => match cnum c with NReal r => Some (r, l') | NInt _ => first_real l' end
    end.
  Definition add_mid (l : list cand) : list cand :=
    match first_real l with
    | Some (x, rest) => match first_real rest with
                        | Some (y, _) => add_value_opt (real_opt (f_mid fo x y)) 30 l
                        | None => l
                        end
    | None => l
    end.
  Definition complete (l : list cand) (glob : list cand) : list cand * list cand :=
    let l1 := add_mid l in
    let glob1 := fold_left (fun g c => global_add (cnum c) 70 g) l1 glob in
    let l2 := fold_left (fun l c => add_value (cnum c) 70 l) glob1 l1 in
    (sort_values (add_value (NInt (-1)) 80 (add_value (NInt 1) 80 (add_value (NInt 0) 80 l2))), glob1).

  (** wr_arith_frontier_bindable, 557-567. *)
  Definition bindable (s : scan) (vs : list Z) : bool :=
    existsb (fun v => existsb (fun p => (fst p =? v) && snd p) (svars s)) vs.

  (** ** The cache *)
  (** wr_arith_cache_entry: the parent, the variables with kinds and bits of the values; unused
      places of the arrays are 0 in every entry. *)
  Definition key : Type := (Z * list Z * list num)%type.
  Definition key_eq_dec (a b : key) : {a = b} + {a <> b}.
  Proof. decide equality; [decide equality; decide equality; apply Z.eq_dec|decide equality; [apply list_eq_dec, Z.eq_dec|apply Z.eq_dec]]. Defined.
  Definition entries := list (option key).
  Variable slot_of : key -> nat.            (* the hash, taken modulo the size *)

  (** wr_arith_cache_seen, 581-619, from [slot] on; [None]: the table is full. *)
  Fixpoint seek (steps : nat) (slot : nat) (k : key) (c : entries) : option (bool * entries) :=
    match steps with
    | O => None
    | S n =>
        match nth slot c None with
        | None => Some (false, firstn slot c ++ Some k :: skipn (S slot) c)
        | Some k' => if key_eq_dec k' k then Some (true, c)
                     else seek n (if Nat.eqb (S slot) (length c) then O else S slot) k c
        end
    end.

  (** What stays between calls; [cache] [None]: not allocated; [done] = stat_arithinst_probes. *)
  Record gst := { cache : option entries; saturated : bool; done : Z; glob : list cand; proof : bool }.
  Definition seen (k : key) (g : gst) : bool * gst :=
    match cache g with
    | Some c =>
        if saturated g then (false, g)
        else match seek (length c) (slot_of k mod length c) k c with
             | Some (b, c') => (b, {| cache := Some c'; saturated := false; done := done g; glob := glob g; proof := proof g |})
             | None => (false, {| cache := cache g; saturated := true; done := done g; glob := glob g; proof := proof g |})
             end
    | None => (false, g)
    end.

  (** ** Probes *)
  Variable cf : conf.
  (** What a probe leads to, given the probes made before: [None]: given up before it is
      counted (798-818); otherwise: an instance was stored, a proof was found. *)
  Variable ask : list key -> key -> option (bool * bool).

  (** wr_arith_probe, 781-855; [log] lists the counted probes of the run, last first. *)
  Definition probe1 (k : key) (g : gst) (log : list key) : bool * gst * list key :=
    if global_limit cf <=? done g then (false, g, log)
    else let '(b, g1) := seen k g in
         if b then (false, g1, log)
         else match ask log k with
              | None => (false, g1, log)
              | Some (kept, pr) =>
                  (kept, {| cache := cache g1; saturated := saturated g1; done := done g1 + 1; glob := glob g1;
                            proof := proof g1 || pr |}, k :: log)
              end.

  (** The loop of wr_generate_arith_instances, 865-932, flattened: the tuples in the order in
      which they are tried; all its breaks test the same condition, so they end the whole loop. *)
  Record lst := { lg : gst; llog : list key; ltried : Z; lkept : Z }.
  Definition stop (l : lst) : bool :=
    (probe_limit cf <=? ltried l) || (global_limit cf <=? done (lg l)) || (keep_limit cf <=? lkept l) || proof (lg l).
  Fixpoint attempt (ks : list key) (l : lst) : lst :=
    match ks with
    | [] => l
    | k :: ks' =>
        if stop l then l
        else let '(b, g, log) := probe1 k (lg l) (llog l) in
             attempt ks' {| lg := g; llog := log; ltried := ltried l + 1; lkept := if b then lkept l + 1 else lkept l |}
    end.
  (** 902-908: one variable; 909-923: two variables, by the sum of the positions. *)
  Definition pairs_of_sum (n : nat) (sum : nat) : list (nat * nat) :=
    flat_map (fun i => if (Nat.leb i sum) && (Nat.ltb (sum - i) n) then [(i, sum - i)%nat] else []) (seq 0 n).
  Definition nth_num (l : list cand) (i : nat) : num := cnum (nth i l no_cand).
  Definition tuples (cs : list cand) (n : nat) (vs : list Z) : list (list num) :=
    match vs with
    | [_] => map (fun i => [nth_num cs i]) (seq 0 n)
    | [_; _] => if 2 <=? mode cf
                then flat_map (fun sum => map (fun p => [nth_num cs (fst p); nth_num cs (snd p)]) (pairs_of_sum n sum)) (seq 0 (2 * (n - 1) + 1))
                else []
    | _ => []
    end.
  (** 893-900: the frontiers used; one with the variables of an earlier one is left out. *)
  Fixpoint used_fronts (s : scan) (before after : list (list Z)) : list (list Z) :=
    match after with
    | [] => []
    | vs :: after' =>
        if (max_vars cf <? Z.of_nat (length vs)) || bindable s vs || existsb (fun p => same_vars p vs) before
        then used_fronts s (before ++ [vs]) after'
        else vs :: used_fronts s (before ++ [vs]) after'
    end.
  Definition schedule (ptr : Z) (s : scan) (cs : list cand) : list key :=
    let n := Z.to_nat (Z.min (Z.of_nat (length cs)) (cand_limit cf)) in
    flat_map (fun vs => map (fun t => (ptr, vs, t)) (tuples cs n vs)) (used_fronts s [] (fronts s)).

  (** How a clause came about, as far as wr_arith_ancestry_depth (621-640) looks. *)
  Inductive anc := AOther | AInst (parent : anc).
  Fixpoint depth (a : anc) : Z := match a with AOther => 0 | AInst p => depth p + 1 end.

  (** A clause selected by the main loop: its address, its atoms, its ancestry; [proof] may
      have been reset since the last call (history.c 2507). *)
  Record call := { ptr : Z; atoms : list term; anc_of : anc; proof_in : bool }.
  Variable on : bool.         (* use_comp_funs_strat, use_comp_arithmetic and have_nonground_arithmetic *)
  Variable got_cache : bool.  (* whether the cache could be allocated *)

  (** wr_generate_arith_instances, 865-932, with the guard of rgenloop.c 363-366. *)
  Definition generate (c : call) (g0 : gst) (log : list key) : lst :=
    let g := {| cache := cache g0; saturated := saturated g0; done := done g0; glob := glob g0; proof := proof_in c |} in
    if (mode cf =? 0) || negb on || (global_limit cf <=? done g) then {| lg := g; llog := log; ltried := 0; lkept := 0 |}
    else
      let g1 := match cache g with
                | None => if saturated g then g
                          else {| cache := if got_cache then Some (repeat None (Z.to_nat cache_size)) else None;
                                  saturated := negb got_cache; done := done g; glob := glob g; proof := proof g |}
                | Some _ => g
                end in
      if depth_limit cf <=? depth (anc_of c) then {| lg := g1; llog := log; ltried := 0; lkept := 0 |}
      else
        let s := scan_clause (atoms c) in
        let '(cs, gl) := complete (vals s) (glob g1) in
        let g2 := {| cache := cache g1; saturated := saturated g1; done := done g1; glob := gl; proof := proof g1 |} in
        attempt (schedule (ptr c) s cs) {| lg := g2; llog := log; ltried := 0; lkept := 0 |}.

  (** wr_arithinst_reset_run, 83-103: before every run; a cache from an earlier run is emptied. *)
  Definition reset (g : gst) : gst :=
    {| cache := option_map (fun c => map (fun _ => None) c) (cache g); saturated := false; done := 0; glob := []; proof := false |}.
  Definition fresh : gst := {| cache := None; saturated := false; done := 0; glob := []; proof := false |}.

  (** A run: the state, the log and, for every call, what it did. *)
  Fixpoint run (cs : list call) (g : gst) (log : list key) : gst * list key * list lst :=
    match cs with
    | [] => (g, log, [])
    | c :: cs' =>
        let l := generate c g log in
        let '(g', log', ls) := run cs' (lg l) (llog l) in (g', log', l :: ls)
    end.
End Ag.
