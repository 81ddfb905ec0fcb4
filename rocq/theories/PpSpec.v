(** What propositional instances, propositional clauses and solver files mean, independent of the code. *)
From Coq Require Import String Ascii List ZArith Bool.
From Verif Require Import Terms SubsumeSpec.
Import ListNotations.
Open Scope Z_scope.
Open Scope list_scope.

(** The instance of a clause with [g] for all variables. *)
Definition ground_with (g : cst) (c : list literal) : list literal := map (inst (fun _ => TCst g)) c.

(** Truth of a ground clause when [V] says which atoms are true. *)
Definition lit_true (V : term -> Prop) (l : literal) : Prop := if fst l then ~ V (snd l) else V (snd l).
Definition clause_true (V : term -> Prop) (c : list literal) : Prop := exists l, In l c /\ lit_true V l.

(** Truth of a clause of numbers when [P] says which numbers are true: a negative number is a negation. *)
Definition num_true (P : Z -> Prop) (z : Z) : Prop := (0 < z /\ P z) \/ (z < 0 /\ ~ P (- z)).
Definition nums_true (P : Z -> Prop) (ls : list Z) : Prop := exists z, In z ls /\ num_true P z.

(** Satisfiable: some assignment of true and false makes all clauses true. *)
Definition is_true_of {A : Type} (f : A -> bool) (a : A) : Prop := f a = true.
Definition nums_satisfiable (cls : list (list Z)) : Prop :=
  exists P : Z -> bool, forall c, In c cls -> nums_true (is_true_of P) c.
Definition ground_satisfiable (cls : list (list literal)) : Prop :=
  exists V : term -> bool, forall c, In c cls -> clause_true (is_true_of V) c.

(** * The DIMACS format *)
Definition newline : ascii := ascii_of_nat 10.
Fixpoint lines (s : list ascii) : list (list ascii) :=
  match s with
  | nil => [nil]
  | c :: r =>
      if ascii_dec c newline then nil :: lines r
      else match lines r with l :: ls => (c :: l) :: ls | nil => [[c]] end
  end.
(** The words of a line: maximal parts without blanks. *)
Definition blank_char (c : ascii) : bool := if ascii_dec c " "%char then true else false.
Fixpoint words (s : list ascii) : list (list ascii) :=
  match s with
  | nil => nil
  | c :: r =>
      if blank_char c then words r
      else match r with
           | nil => [[c]]
           | d :: _ => if blank_char d then [c] :: words r
                       else match words r with w :: ws => (c :: w) :: ws | nil => [[c]] end
           end
  end.
Definition digit_of (c : ascii) : option Z :=
  let n := Z.of_nat (nat_of_ascii c) in
  if (48 <=? n) && (n <=? 57) then Some (n - 48) else None.
Fixpoint natural (acc : Z) (s : list ascii) : option Z :=
  match s with
  | nil => Some acc
  | c :: r => match digit_of c with Some d => natural (10 * acc + d) r | None => None end
  end.
Definition number (s : list ascii) : option Z :=
  match s with
  | nil => None
  | c :: r =>
      if ascii_dec c "-"%char then
        match r with nil => None | _ => option_map Z.opp (natural 0 r) end
      else natural 0 s
  end.
Fixpoint all_numbers (ws : list (list ascii)) : option (list Z) :=
  match ws with
  | nil => Some nil
  | w :: r => match number w, all_numbers r with Some z, Some l => Some (z :: l) | _, _ => None end
  end.
(** Clauses end with 0. *)
Fixpoint cut_at_0 (zs : list Z) : option (list (list Z)) :=
  match zs with
  | nil => Some nil
  | z :: r =>
      match cut_at_0 r with
      | None => None
      | Some cs => if z =? 0 then Some (nil :: cs)
                   else match cs with c :: cs' => Some ((z :: c) :: cs') | nil => None end
      end
  end.
Definition comment (l : list ascii) : bool :=
  match l with c :: _ => if ascii_dec c "c"%char then true else false | nil => false end.
(** A file: comment lines, the line p cnf with the numbers of variables and clauses, the clauses. *)
Definition read_dimacs (s : list ascii) : option (Z * Z * list (list Z)) :=
  match filter (fun l => negb (comment l)) (lines s) with
  | head :: body =>
      match words head with
      | [p; cnf; nv; nc] =>
          if list_eq_dec ascii_dec p (list_ascii_of_string "p") then
            if list_eq_dec ascii_dec cnf (list_ascii_of_string "cnf") then
              match number nv, number nc, all_numbers (concat (map words body)) with
              | Some v, Some n, Some zs =>
                  match cut_at_0 zs with Some cs => Some (v, n, cs) | None => None end
              | _, _, _ => None
              end
            else None
          else None
      | _ => None
      end
  | nil => None
  end.

(** A file as the format wants it: the clauses are as many as said, and of variables 1 to the number said. *)
Definition well_formed (v n : Z) (cs : list (list Z)) : Prop :=
  n = Z.of_nat (length cs) /\ forall c z, In c cs -> In z c -> z <> 0 /\ Z.abs z <= v.

(** The verdict line of a solver: the line s UNSATISFIABLE. *)
Definition says_unsat (output : list ascii) : Prop :=
  In (list_ascii_of_string "s UNSATISFIABLE") (lines output).
(** It is written nowhere else: a line in which it occurs is that line. *)
Definition verdict_only (output : list ascii) : Prop :=
  forall l a b, In l (lines output) -> l = a ++ list_ascii_of_string "s UNSATISFIABLE" ++ b ->
  l = list_ascii_of_string "s UNSATISFIABLE".
(** A right solver: when it writes the verdict line, the file holds clauses that cannot all be true; and it writes
    the words of the line nowhere else. *)
Definition right_solver (solver : option (list ascii) -> list ascii) : Prop :=
  forall f, verdict_only (solver f) /\
    (says_unsat (solver f) -> exists v n cs content,
       f = Some content /\ read_dimacs content = Some (v, n, cs) /\ ~ nums_satisfiable cs).
