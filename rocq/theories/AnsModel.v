(** Answers: which clauses are answers, when two answers are the same, and how they are
    registered and counted.
    Code: Reasoner/build.c 766-781 (wr_answer_lit), Reasoner/derive.c 2055-2085
    (wr_cl_derived_is_answer), Reasoner/history.c 2465-2524 (registration and counts),
    2532-2596 (wr_same_answers), Reasoner/glb.c 1024-1025 and glb.h 107 (the vector).
    Simplifications: [ans] is the interned URI "$ans" without prefix, so the comparison of
    characters is an equality of symbols; a clause is named by the word stored for it, NULL
    being 0, and [mem] says which clause a nonzero word names. *)
From Coq Require Import List ZArith Bool.
From Verif Require Import Terms MatchModel MetaModel DeriveModel VecModel.
Import ListNotations.
Open Scope Z_scope.

Section Answers.
  Variable ans : cst.

  (** wr_answer_lit, build.c 766-781; [None]: the atom has no field at unify_funpos and the
      code reads a word which is none. *)
  Definition answer_lit (a : term) : option bool :=
    match a with
    | TRec (TCst c :: _) => Some (if cst_eq_dec c ans then true else false)
    | TRec (_ :: _) => Some false
    | _ => None
    end.

  Fixpoint count_answers (ls : list clit) : option Z :=              (* derive.c 2077-2080 *)
    match ls with
    | [] => Some 0
    | l :: ls' =>
        match answer_lit (latom l), count_answers ls' with
        | Some b, Some n => Some (if b then n + 1 else n)
        | _, _ => None
        end
    end.

  (** wr_cl_derived_is_answer, derive.c 2060-2085, of a clause which is not NULL. *)
  Definition derived_is_answer (c : scl) : option Z :=
    let ansnr :=
      match c with
      | SFact _ a =>                                                 (* 2069-2074 *)
          match answer_lit a with Some b => Some (if b then 1 else 0) | None => None end
      | SRule ls => count_answers ls
      end in
    let len := match c with SFact _ _ => 1 | SRule ls => Z.of_nat (length ls) end in
    match ansnr with
    | Some n => Some (if n =? len then n else -1)                    (* 2083-2084 *)
    | None => None
    end.
End Answers.

Section Register.
  Variable sb : stray_env.

  (** The loop of wr_same_answers, history.c 2574-2594. *)
  Fixpoint same_literals (xs ys : list clit) : eres :=
    match xs, ys with
    | x :: xs', y :: ys' =>
        if negb (Bool.eqb (meta_is_neg (lmeta x)) (meta_is_neg (lmeta y))) then ENo
        else match equal_term sb (latom x) (latom y) with
             | EYes => same_literals xs' ys'
             | r => r
             end
    | _, _ => EYes
    end.
  (** wr_same_answers, history.c 2532-2596. *)
  Definition same_answers (x y : scl) : eres :=
    match x, y with
    | SFact _ a, SFact _ b => equal_term sb a b                      (* 2554-2562 *)
    | SRule xs, SRule ys =>
        if Nat.eqb (length xs) (length ys) then same_literals xs ys  (* 2571-2573 *)
        else ENo
    | _, _ => ENo                                                    (* 2563-2569 *)
    end.

  Variable mem : Z -> scl.

  (** [FCrash]: the type word of a clause is read through NULL (clterm.h 168). *)
  Inductive found := FHit | FMiss | FCrash | FStrayRead | FOutside.
  (** The loop of wr_register_answer, 2477-2489; [n] bounds the rounds. *)
  Fixpoint look (n : nat) (v : vec) (i count : Z) (w : Z) : found :=
    match n with
    | O => FMiss
    | S n' =>
        if i <? count then
          match rd v i with
          | None => FOutside
          | Some x =>
              if (x =? 0) || (w =? 0) then FCrash
              else match same_answers (mem x) (mem w) with
                   | EYes => FHit
                   | EStray => FStrayRead
                   | ENo => look n' v (i + 2) count w
                   end
          end
        else FMiss
    end.

  (** [RRet r a]: returned [r], leaving the vector [a] ([None]: NULL). [RStale]: the block
      written to was moved by the store before. *)
  Inductive rres := RRet (r : Z) (a : option vec) | RCrash | RStray | RStale | RUB.

  Definition answer_nr (v : vec) : option Z :=                       (* ((g->answers)[1]-2)/2 *)
    match rd v 1 with Some n => Some (Z.quot (n - 2) 2) | None => None end.

  (** wr_register_answer, history.c 2465-2498.  [sto] is store_history; [hist] is the word of
      the copied history, [None] if the copy failed; [ok1], [ok2]: whether memory for a
      larger vector would be given at the two stores. *)
  Definition register (sto : bool) (hist : option Z) (ok1 ok2 : bool) (junk : nat -> Z)
      (a : option vec) (w : Z) : rres :=
    if negb sto then RRet 0 a                                        (* 2472 *)
    else
      match a with
      | None => RCrash                                               (* 2474 *)
      | Some v =>
          match rd v 0, rd v 1 with
          | Some len, Some count =>
              match (if 0 <? count then look (length v) v 2 count w else FMiss) with   (* 2475-2489 *)
              | FCrash => RCrash
              | FStrayRead => RStray
              | FOutside => RUB
              | FHit => match answer_nr v with Some k => RRet k a | None => RUB end   (* 2487 *)
              | FMiss =>
                  match hist with
                  | None => RRet (-1) a                              (* 2492 *)
                  | Some h =>
                      match cvec_store ok1 junk v count w with       (* 2493 *)
                      | VFail => RRet (-1) None                      (* 2494 *)
                      | VUB => RUB
                      | VOk v1 =>
                          if len <? count then RStale                (* 2495: answers was freed *)
                          else
                            match cvec_store ok2 junk v1 (count + 1) h with
                            | VFail => RRet (-1) None                (* 2496 *)
                            | VUB => RUB
                            | VOk v2 => match answer_nr v2 with Some k => RRet k (Some v2) | None => RUB end   (* 2497 *)
                            end
                      end
                  end
              end
          | _, _ => RUB
          end
      end.
End Register.

Definition initial_answers_len := 1000.                              (* glb.h 107 *)
(** glb.c 1024-1025. *)
Definition no_answers (junk : nat -> Z) : vec := cvec_new initial_answers_len junk.

(** wr_enough_answers, history.c 2500-2510: the answer, and proof_found afterwards; [None]:
    a read outside the vector. *)
Definition enough_answers (sto : bool) (required : Z) (a : option vec) (proof_found : bool) : option (bool * bool) :=
  if negb sto then Some (true, proof_found)
  else match a with
       | None => Some (true, proof_found)
       | Some v =>
           match answer_nr v with
           | None => None
           | Some k => Some (if required <=? k then (true, proof_found) else (false, false))
           end
       end.
(** wr_have_answers, history.c 2512-2524. *)
Definition have_answers (sto : bool) (a : option vec) (proof_found : bool) : option bool :=
  if negb sto then Some proof_found
  else match a with
       | None => Some proof_found
       | Some v =>
           if proof_found then Some true
           else match answer_nr v with None => None | Some k => Some (1 <=? k) end
       end.
