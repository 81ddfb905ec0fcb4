(** Choosing the next given clause.  Code: Reasoner/clstore.c 880-1136, 1149-1440, clstore.h 55-73,
    glb.c 879-881, rgenloop.c 236-243.
    Simplifications: the vector of four blocks of ten words is a function from block numbers to
    records; block [k] starts at word 1 + 10 k.  Clause addresses and offsets are identified.  The
    initial lengths of the vectors (NROF_DYNALLOCINITIAL_ELS, NROF_HYPER_QUEUE_ELS) and the number of
    weights told apart (MAX_CLPRIOR) are parameters.  [ok], [junk]: as in VecModel and QueueModel.
    [None]: memory ran out (the run ends with an error) or a read outside a vector.
    Not modelled: the meta blocks filled in for the picked clause (1331, 1384). *)
From Coq Require Import List ZArith Bool.
From Verif Require Import VecModel QueueModel.
Import ListNotations.
Open Scope Z_scope.

(** What the strategy fixes: cl_pick_queue_strategy, pick_given_queue_ratio, and the sizes *)
Record config := { strat : Z; ratio : Z; els : Z; hels : Z; maxp : Z }.

(** A clause: its address, the role in its history (history.h 124-132), whether it is stored as a
    rule, and its literals: (negative, an answer literal). *)
Record cinfo := { addr : Z; role : Z; rule : bool; lits : list (bool * bool) }.

(** One block of the vector of queues: clstore.h 60-66 *)
Record block := { simple : vec; prior : queue; givenpos : Z; pratio : Z; pcount : Z; tratio : Z; tcount : Z }.
(** [blk]: clpick_queues; [cur]: next_pick_given_queue_block_nr; [hyper]: hyper_queue *)
Record sel := { blk : Z -> block; cur : Z; hyper : vec }.

(** How often a block is to be picked before others: 921-934 *)
Definition this_ratio (strat b : Z) : Z :=
  if b =? 0 then (if negb (strat =? 0) then 6 else 1)
  else if b =? 1 then (if negb (strat =? 0) then 4 else 1)
  else if b =? 2 then 1 else 1.
(** wr_create_clpick_queues 880-965 *)
Definition new_block (cfg : config) (junk : nat -> Z) (b : Z) : block :=
  {| simple := cvec_new (els cfg) junk; prior := make_queue (maxp cfg) 0; givenpos := 2;
     pratio := ratio cfg; pcount := 0; tratio := this_ratio (strat cfg) b; tcount := 0 |}.
(** glb.c 879-881: a counting vector whose words 1 and 2 are set to 3 *)
Definition new_hyper (cfg : config) (junk : nat -> Z) : vec :=
  hels cfg :: 3 :: 3 :: map junk (seq 1 (Z.to_nat (hels cfg - 1))).
Definition create (cfg : config) (junk : nat -> Z) : sel :=
  {| blk := new_block cfg junk; cur := 0; hyper := new_hyper cfg junk |}.

(** wr_is_positive_unit_cl 1104-1118 *)
Definition positive_unit (c : cinfo) : bool :=
  if negb (rule c) then true
  else if (1 <? Z.of_nat (length (lits c))) then false else forallb (fun l => negb (fst l)) (lits c).
(** wr_is_negative_cl 1120-1136 *)
Definition negative_cl (c : cinfo) : bool :=
  if negb (rule c) then false
  else if (1 <? Z.of_nat (length (lits c))) then false else forallb (fun l => snd l || fst l) (lits c).

(** 1031-1057: the role after the changes the strategy asks for *)
Definition adjusted (strat : Z) (c : cinfo) : Z :=
  let r := role c in
  if strat =? 2 then
    if (r =? 1) && positive_unit c then 2 else if r =? 10 then 2 else r
  else if strat =? 3 then
    if (r =? 1) && negb (negative_cl c) then 10 else if r =? 2 then 10 else r
  else if strat =? 4 then 10 else r.
(** The block a clause is pushed to: 1024-1070, 1088 *)
Definition class (strat : Z) (c : cinfo) : Z :=
  if negb (strat =? 0) then
    let r := adjusted strat c in
    if r =? 1 then 1 else if r =? 2 then 2 else if r =? 4 then 1 else if r =? 3 then 0
    else if r =? 5 then 2 else if r =? 10 then 3 else if r =? 12 then 3 else if r =? 11 then 3 else 3
  else 3.

Definition set_blk (s : sel) (b : Z) (x : block) : sel :=
  {| blk := fun k => if k =? b then x else blk s k; cur := cur s; hyper := hyper s |}.
Definition set_cur (s : sel) (b : Z) : sel := {| blk := blk s; cur := b; hyper := hyper s |}.
Definition set_hyper (s : sel) (v : vec) : sel := {| blk := blk s; cur := cur s; hyper := v |}.

(** wr_push_cl_clpick_queues 1007-1101 *)
Definition push_cl (cfg : config) (ok1 ok2 : bool) (junk1 junk2 : nat -> Z) (s : sel) (c : cinfo) (w : Z) : option sel :=
  let b := class (strat cfg) c in
  let x := blk s b in
  match cvec_push ok1 junk1 (simple x) (addr c) with
  | VOk v =>
      match (if 0 <=? w then push ok2 junk2 (prior x) (addr c) w else Some (prior x)) with
      | Some q => Some (set_blk s b {| simple := v; prior := q; givenpos := givenpos x; pratio := pratio x;
                                       pcount := pcount x; tratio := tratio x; tcount := tcount x |})
      | None => None
      end
  | _ => None
  end.
(** wr_push_cl_hyper_queue 973-997 *)
Definition push_hyper (ok : bool) (junk : nat -> Z) (s : sel) (c : Z) : option sel :=
  match cvec_push ok junk (hyper s) c with VOk v => Some (set_hyper s v) | _ => None end.

(** wr_cl_ismarked_given 1399-1403 returns 0 before looking; wr_cl_mark_given 1431-1440 returns
    before writing. *)
Definition ismarked (c : Z) : bool := false.

(** wr_pick_from_hyper_queue 1149-1177; the first [None]: a read outside the vector *)
Definition pick_hyper (v : vec) : option (option Z * vec) :=
  match rd v 2, rd v 1 with
  | Some pos, Some next =>
      if (next <=? 3) || (next <=? pos) then Some (None, v)
      else match rd v pos with
           | None => None
           | Some c =>
               match (if next <=? pos + 1
                      then match wr v 1 3 with Some v => wr v 2 3 | None => None end
                      else wr v 2 (pos + 1)) with
               | Some v => Some (Some c, v)
               | None => None
               end
           end
  | _, _ => None
  end.

(** The loop 1351-1391 over the simple queue; [n] bounds the turns *)
Fixpoint pick_simple (n : nat) (x : block) : option (option Z * block) :=
  match n with
  | O => None
  | S n =>
      match rd (simple x) 1 with
      | None => None
      | Some next =>
          if (2 <? next) && (givenpos x <? next) then
            match rd (simple x) (givenpos x) with
            | None => None
            | Some c =>
                let x := {| simple := simple x; prior := prior x; givenpos := givenpos x + 1; pratio := pratio x;
                            pcount := pcount x; tratio := tratio x; tcount := tcount x + 1 |} in
                if negb (c =? 0) && negb (ismarked c) then Some (Some c, x) else pick_simple n x
            end
          else Some (None, x)
      end
  end.
Definition simple_turns (x : block) : nat :=
  match rd (simple x) 1 with Some next => S (Z.to_nat (next - givenpos x)) | None => 1%nat end.

(** wr_pick_from_clpick_queues_aux 1254-1394; [true]: from the priority queue *)
Definition pick_block (x : block) : option (option (bool * Z) * block) :=
  let from_simple x :=
    match pick_simple (simple_turns x) x with
    | Some (Some c, x) => Some (Some (false, c), x)
    | Some (None, x) => Some (None, x)
    | None => None
    end in
  if pcount x <? pratio x then
    match pick ismarked (prior x) with
    | None => None
    | Some (Some c, q) =>
        Some (Some (true, c), {| simple := simple x; prior := q; givenpos := givenpos x; pratio := pratio x;
                                 pcount := pcount x + 1; tratio := tratio x; tcount := tcount x + 1 |})
    | Some (None, q) =>
        from_simple {| simple := simple x; prior := q; givenpos := givenpos x; pratio := pratio x;
                       pcount := pcount x; tratio := tratio x; tcount := tcount x |}
    end
  else from_simple {| simple := simple x; prior := prior x; givenpos := givenpos x; pratio := pratio x;
                      pcount := 0; tratio := tratio x; tcount := tcount x |}.

Definition with_tcount (x : block) (t : Z) : block :=
  {| simple := simple x; prior := prior x; givenpos := givenpos x; pratio := pratio x;
     pcount := pcount x; tratio := tratio x; tcount := t |}.

(** The loop 1205-1250; [n] bounds the turns.  1240: the block start never reaches the length 40. *)
Fixpoint pick_loop (n : nat) (first queuenr : Z) (loopflag : bool) (s : sel) : option (option (Z * bool * Z) * sel) :=
  match n with
  | O => None
  | S n =>
      if loopflag && (queuenr =? first) then Some (None, s)
      else match pick_block (blk s queuenr) with
           | None => None
           | Some (Some (light, c), x) =>
               Some (Some (queuenr, light, c),
                     if tratio x <=? tcount x
                     then set_cur (set_blk s queuenr (with_tcount x 0)) (cur s + 1)
                     else set_blk s queuenr (with_tcount x (tcount x + 1)))
           | Some (None, x) =>
               let s := set_blk s queuenr x in
               if (4 <=? queuenr + 1) || (40 <=? 1 + queuenr * 10)
               then pick_loop n first 0 true (set_cur s 0)
               else pick_loop n first (queuenr + 1) loopflag (set_cur s (queuenr + 1))
           end
  end.
(** wr_pick_from_clpick_queues 1181-1251 *)
Definition pick_queues (s : sel) : option (option (Z * bool * Z) * sel) :=
  let s := if 4 <=? cur s then set_cur s 0 else s in
  pick_loop 9 (cur s) (cur s) false s.

(** Where the chosen clause came from: the partial hyperresolvents, or a class, by weight or by age *)
Inductive source := Hyper | Light (b : Z) | Oldest (b : Z).
(** The choice in the main loop: rgenloop.c 236-243 *)
Definition select (s : sel) : option (option (source * Z) * sel) :=
  match pick_hyper (hyper s) with
  | None => None
  | Some (Some c, v) => Some (Some (Hyper, c), set_hyper s v)
  | Some (None, v) =>
      match pick_queues (set_hyper s v) with
      | None => None
      | Some (None, s) => Some (None, s)
      | Some (Some (b, light, c), s) => Some (Some (if light then Light b else Oldest b, c), s)
      end
  end.
