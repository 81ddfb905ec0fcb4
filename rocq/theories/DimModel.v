(** The file for the external propositional solver, its answer, and several processes doing this at once:
    Reasoner/prop.c 1176-1313; glb.h 127-129.

    Simplifications: writing the file, running the solver on it, reading its answer and removing the files are one
    step each (in the program each is a sequence of steps, in which other processes may come too); opening and
    writing the files succeeds. *)
From Coq Require Import String Ascii List ZArith Bool.
From Verif Require Import Word64 PtModel.
Import ListNotations.
Open Scope Z_scope.
Open Scope list_scope.

(** printf's %ld *)
Definition ld (z : Z) : str := if z <? 0 then ch 45 :: digits 20 (- z) else digits 20 z.
Definition NL : ascii := ch 10.

(** wr_fprint_prop_clause 1284-1313 *)
Fixpoint numbers (ls : list Z) : str :=
  match ls with
  | nil => nil
  | [z] => ld z
  | z :: r => ld z ++ SP :: numbers r
  end.
Definition clause_line (ls : list Z) : str := numbers ls ++ S_ " 0" ++ [NL].

(** wr_make_prop_file 1250-1281.  [maxvar] is the next free place of the vector of values (1264): the first number
    not used. *)
Definition prop_file (maxvar : Z) (cls : list (list Z)) : str :=
  S_ "c generated by gkc" ++ [NL] ++
  S_ "p cnf " ++ ld (w32 maxvar) ++ SP :: ld (w32 (Z.of_nat (length cls))) ++ [NL] ++
  concat (map clause_line cls).

(** fgets with room for 900 bytes, 1227: up to and with the end of the line, or 899 bytes. *)
Fixpoint fgets_loop (n : nat) (s : str) : str * str :=
  match n, s with
  | S n', c :: r => if ascii_dec c NL then ([c], r) else let (a, b) := fgets_loop n' r in (c :: a, b)
  | _, _ => (nil, s)
  end.
(** strstr *)
Fixpoint prefix_of (p s : str) : bool :=
  match p, s with
  | nil, _ => true
  | a :: p', b :: s' => if ascii_dec a b then prefix_of p' s' else false
  | _, nil => false
  end.
Fixpoint contains (p s : str) : bool :=
  prefix_of p s || match s with nil => false | _ :: r => contains p r end.

(** The loop over the solver's output, 1225-1234. *)
Definition provedstr : str := S_ "s UNSATISFIABLE".
Fixpoint proved_loop (fuel : nat) (s : str) : bool :=
  match fuel, s with
  | O, _ => false
  | _, nil => false
  | S f, _ => let (a, b) := fgets_loop 899 s in contains provedstr a || proved_loop f b
  end.
Definition proved (s : str) : bool := proved_loop (length s) s.

(** The processes.  All use the same two file names: the default names end in XXXXXX and the calls of mktemp are
    commented out (1192-1198). *)
Record files := Files { fin : option str; fout : option str }.
Inductive stage := AtWrite | AtSolve | AtRead | AtRemove | Over (r : Z).
Record world := World { disk : files; stages : list stage }.

Fixpoint put (k : nat) (x : stage) (l : list stage) : list stage :=
  match l, k with
  | nil, _ => nil
  | _ :: r, O => x :: r
  | y :: r, S k' => y :: put k' x r
  end.

Section Solve.
  Variable solver : option str -> str.    (* what the solver prints, given the contents of the file, if it is there *)
  Variable text : nat -> str.             (* what each process writes *)

  (** wr_prop_solve_current 1176-1247 *)
  Definition act (k : nat) (d : files) (s : stage) : option (files * stage) :=
    match s with
    | AtWrite => Some (Files (Some (text k)) (fout d), AtSolve)                       (* 1208 *)
    | AtSolve => Some (Files (fin d) (Some (solver (fin d))), AtRead)                 (* 1215 *)
    | AtRead =>                                                                       (* 1223-1241 *)
        match fout d with
        | None => Some (d, Over (-1))
        | Some o => if proved o then Some (d, Over 2) else Some (d, AtRemove)
        end
    | AtRemove => Some (Files None None, Over 0)                                      (* 1243-1245 *)
    | Over _ => None
    end.

  Inductive wstep : world -> world -> Prop :=
  | wstep_act : forall w k s d' s', nth_error (stages w) k = Some s -> act k (disk w) s = Some (d', s') ->
      wstep w (World d' (put k s' (stages w))).
  Inductive wreach : world -> world -> Prop :=
  | wreach_refl : forall w, wreach w w
  | wreach_step : forall a b c, wreach a b -> wstep b c -> wreach a c.
End Solve.
