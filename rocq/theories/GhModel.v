(** The growing hash table from integers to integers (extendible hashing) that the replay of the journal
    uses for moved offsets: Db/dbhash.c 58-87, 585-860; users Db/dblog.c 450-500.

    Simplified: buckets are numbers into a heap, the directory is a function on its indexes, and every
    access is checked against the size, as is every write into a bucket ([Ub] otherwise).  Memory for
    buckets and directory does not run out.  [h]: GINTHASH_SCRAMBLE 69, any function (it is rehash_gint
    688-697); x & (2^n - 1) is x mod 2^n, and bits that are or-ed are disjoint. *)
From Coq Require Import ZArith List Bool.
Import ListNotations.
Open Scope Z_scope.

(** 58, 66 *)
Definition BUCKETCAP := 7%nat.
Definition MAXLEVEL := 23.

Inductive res A := Ok (a : A) | Fail | Ub | Fuel.
Arguments Ok {A}. Arguments Fail {A}. Arguments Ub {A}. Arguments Fuel {A}.
Definition bind {A B} (x : res A) (f : A -> res B) : res B :=
  match x with Ok a => f a | Fail => Fail | Ub => Ub | Fuel => Fuel end.
Notation "p <- x ;; y" := (bind x (fun p => y)) (at level 61, x at next level, right associativity).
Notation "' p <- x ;; y" := (bind x (fun p => y)) (at level 61, p pattern, x at next level, right associativity).

(** ginthash_bucket 72-77: the filled slots, in order *)
Record bucket := mkB { blevel : Z; items : list (Z * Z) }.
(** ext_ginthash 82-87 *)
Record table := mkT { tlevel : Z; dir : Z -> option nat; heap : nat -> bucket; next : nat }.

Definition updh (f : nat -> bucket) (i : nat) (b : bucket) : nat -> bucket := fun j => if Nat.eqb j i then b else f j.
Definition updd (f : Z -> option nat) (i : Z) (b : nat) : Z -> option nat := fun j => if j =? i then Some b else f j.

(** rehash_gint 688-697: FNV-1a over the 8 bytes, 64 bits wide *)
Definition rehash_gint (v : Z) : Z :=
  fold_left (fun hash i => (Z.lxor hash ((v / 2 ^ (8 * Z.of_nat i)) mod 256) * 1099511628211) mod 2 ^ 64)
    (seq 0 8) 14695981039346656037.

(** wg_ginthash_init 601-614, with grow_ginthash from level 0: two empty entries *)
Definition init : table := mkT 1 (fun _ => None) (fun _ => mkB 0 []) 0.

(** grow_ginthash 702-737, from level 1 on *)
Definition grow (t : table) : res table :=
  let newlevel := tlevel t + 1 in
  if newlevel >=? MAXLEVEL then Fail
  else Ok (mkT newlevel (fun i => if i <? 2 ^ tlevel t then dir t i else dir t (i - 2 ^ tlevel t)) (heap t) (next t)).

(** add_to_bucket 824-838 *)
Definition add_to_bucket (l : list (Z * Z)) (k v : Z) : res (list (Z * Z)) :=
  if (length l <=? BUCKETCAP)%nat then Ok (l ++ [(k, v)]) else Ub.
(** remove_from_bucket 841-855: the slots after it move down *)
Definition remove_from_bucket (l : list (Z * Z)) (idx : nat) : list (Z * Z) := firstn idx l ++ skipn (S idx) l.

Section Gh.
Variable h : Z -> Z.

(** The loop over the entries of the bucket, from the last one, 783-791 *)
Fixpoint split_loop (n : nat) (bit : Z) (old new : list (Z * Z)) : res (list (Z * Z) * list (Z * Z)) :=
  match n with
  | O => Ok (old, new)
  | S i =>
      match nth_error old i with
      | None => Ub
      | Some (k, v) =>
          if Z.testbit (h k) bit then
            new <- add_to_bucket new k v ;; split_loop i bit (remove_from_bucket old i) new
          else split_loop i bit old new
      end
  end.
(** The loop over the entries of the directory, 811-818; [c]: msbmask | lowbits *)
Fixpoint dir_loop (n : nat) (j level tl c : Z) (b nb : nat) (d : Z -> option nat) : res (Z -> option nat) :=
  match n with
  | O => Ok d
  | S n =>
      let k := j * 2 ^ level + c in
      if (0 <=? k) && (k <? 2 ^ tl) then
        match d k with
        | Some b' => if Nat.eqb b' b then dir_loop n (j + 1) level tl c b nb (updd d k nb) else Fail
        | None => Fail
        end
      else Ub
  end.
(** ginthash_splitbucket 755-822 *)
Definition splitbucket (t : table) (b : nat) : res (table * nat) :=
  t <- (if blevel (heap t b) =? tlevel t then grow t else Ok t) ;;
  let bit := blevel (heap t b) in
  let level := bit + 1 in
  match items (heap t b) with
  | [] => Ub
  | (k0, _) :: _ =>
      let lowbits := h k0 mod 2 ^ bit in
      let nb := next t in
      '(old, new) <- split_loop (length (items (heap t b))) bit (items (heap t b)) [] ;;
      let c := 2 ^ bit + lowbits in
      d <- (if level =? tlevel t then (if c <? 2 ^ tlevel t then Ok (updd (dir t) c nb) else Ub)
            else dir_loop (Z.to_nat (2 ^ (tlevel t - level))) 0 level (tlevel t) c b nb (dir t)) ;;
      Ok (mkT (tlevel t) d (updh (updh (heap t) b (mkB level old)) nb (mkB level new)) (S nb), nb)
  end.
(** The loop of wg_ginthash_addkey 638-648 *)
Fixpoint add_loop (n : nat) (t : table) (b : nat) : res table :=
  if (length (items (heap t b)) <=? BUCKETCAP)%nat then Ok t
  else
    match n with
    | O => Fuel
    | S n =>
        '(t, newb) <- splitbucket t b ;;
        add_loop n t (if (length (items (heap t newb)) <=? BUCKETCAP)%nat then b else newb)
    end.
(** wg_ginthash_addkey 621-651 *)
Definition addkey (t : table) (k v : Z) : res table :=
  let hash := h k mod 2 ^ tlevel t in
  match dir t hash with
  | None =>
      Ok (mkT (tlevel t) (updd (dir t) hash (next t)) (updh (heap t) (next t) (mkB (tlevel t) [(k, v)])) (S (next t)))
  | Some b =>
      l <- add_to_bucket (items (heap t b)) k v ;;
      add_loop (Z.to_nat MAXLEVEL) (mkT (tlevel t) (dir t) (updh (heap t) b (mkB (blevel (heap t b)) l)) (next t)) b
  end.
(** wg_ginthash_getkey 658-673: the first slot with the key *)
Definition getkey (t : table) (k : Z) : option Z :=
  match dir t (h k mod 2 ^ tlevel t) with
  | None => None
  | Some b => option_map snd (find (fun p => fst p =? k) (items (heap t b)))
  end.

(** A table made by adding these pairs one after another *)
Fixpoint adds (l : list (Z * Z)) (t : table) : res table :=
  match l with
  | [] => Ok t
  | (k, v) :: r => t <- addkey t k v ;; adds r t
  end.
(** translate_offset, dblog.c 491-498 *)
Definition translate (t : table) (offset : Z) : Z := match getkey t offset with Some v => v | None => offset end.
End Gh.
