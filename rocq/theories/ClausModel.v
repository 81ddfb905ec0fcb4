(** Conversion of formulas to clauses.
    Code: Parser/dbclausify.c 85-198, 214-344, 407-646, 660-826, 851-1050, 1063-1255, 1404-1614;
    Parser/dbparse.c 816-881; the list and atom functions of Db/dbmpool.c 308-458, 590-874.
    Memory-pool lists are S-expressions: the structures built here are trees in which no pair is
    shared by two places that are changed, so the in-place change of wr_clausify_replace_vars is
    a function.  [Sl nil] is the NULL pointer.  The pool never runs out.  [None]: the conversion
    stops with a warning (parse_errflag), or would follow a NULL pointer. *)
From Coq Require Import List String Bool Arith DecimalString.
Import ListNotations.
Open Scope string_scope.

(** Atoms: the seven connectives are the WG_ANONCONSTTYPE atoms with those names
    (wg_islogconnective, dbmpool.c 855-869); other atoms have a type and a name.  Atoms with a
    second string (a name space) are of type [TOther] here, since the code treats them so. *)
Inductive conn := CNot | CAnd | COr | CImp | CEqv | CAll | CEx.
Inductive aty := TUri | TVar | TAnon | TOther.
Inductive atom := Con (c : conn) | Sym (t : aty) (s : string).
Inductive sx := Sa (a : atom) | Sl (l : list sx).

Definition conn_eqb (a b : conn) : bool :=
  match a, b with
  | CNot, CNot | CAnd, CAnd | COr, COr | CImp, CImp | CEqv, CEqv | CAll, CAll | CEx, CEx => true
  | _, _ => false
  end.
Definition aty_eqb (a b : aty) : bool :=
  match a, b with TUri, TUri | TVar, TVar | TAnon, TAnon | TOther, TOther => true | _, _ => false end.
Definition atom_eqb (a b : atom) : bool :=
  match a, b with
  | Con c, Con d => conn_eqb c d
  | Sym t s, Sym t' s' => aty_eqb t t' && String.eqb s s'
  | _, _ => false
  end.
(** wg_atomstr1 *)
Definition astr (a : atom) : string :=
  match a with
  | Con CNot => "not" | Con CAnd => "and" | Con COr => "or" | Con CImp => "imp" | Con CEqv => "eqv"
  | Con CAll => "all" | Con CEx => "exists" | Sym _ s => s
  end.
Definition bindable (a : atom) : bool := match a with Sym TUri _ | Sym TVar _ => true | _ => false end.
Definition is_tvar (a : atom) : bool := match a with Sym TVar _ => true | _ => false end.

(** Names made by snprintf "%s%d" with the prefixes of dbclausify.h 36 and dbparse.h 40-41; the
    buffer of 20 bytes holds them for every int.  The counters are unbounded here. *)
Definition dec (n : nat) : string := NilEmpty.string_of_uint (Nat.to_uint n).
Definition xatom (n : nat) : atom := Sym TVar ("X" ++ dec n).
Definition skatom (n : nat) : atom := Sym TUri ("$sk" ++ dec n).
Definition dfatom (n : nat) : atom := Sym TUri ("$df" ++ dec n).

Definition s_not := Sa (Con CNot).
Definition s_and := Sa (Con CAnd).
Definition s_or := Sa (Con COr).
(** wg_mklist2, wg_mklist3 (dbmpool.c 337-353) *)
Definition mk_not (f : sx) : sx := Sl [s_not; f].
Definition mk_and (f g : sx) : sx := Sl [s_and; f; g].
Definition mk_or (f g : sx) : sx := Sl [s_or; f; g].

(** wr_clausify_copy 346-381: whether it succeeds; the copy is the same tree *)
Fixpoint copy_ok (t : sx) : bool :=
  match t with
  | Sa _ => true
  | Sl [] => false
  | Sl l => forallb copy_ok l
  end.

(** The test of 247-250 *)
Definition is_lit_body (x : sx) : bool :=
  match x with
  | Sa _ => true
  | Sl (Sa (Sym _ _) :: _) => true
  | _ => false
  end.
Definition dual_q (sign : bool) (c : conn) : conn :=
  if sign then c else match c with CAll => CEx | CEx => CAll | CAnd => COr | COr => CAnd | _ => c end.

(** wr_clausify_negpush 214-344 *)
Fixpoint negpush (f : sx) (sign : bool) {struct f} : option sx :=
  match f with
  | Sa _ => Some (if sign then f else mk_not f)
  | Sl [] => None
  | Sl [(Sl (_ :: _)) as g] => negpush g sign
  | Sl (Sa (Con c) :: args) =>
      let fix push_all (l : list sx) (s : bool) : option (list sx) :=
        match l with
        | [] => Some []
        | x :: r =>
            match negpush x s, push_all r s with
            | Some y, Some r' => Some (y :: r')
            | _, _ => None
            end
        end in
      let fix push_imp (l : list sx) : option (list sx) :=
        match l with
        | [] => Some []
        | [x] => match negpush x sign with Some y => Some [y] | None => None end
        | x :: r =>
            match negpush x (negb sign), push_imp r with
            | Some y, Some r' => Some (y :: r')
            | _, _ => None
            end
        end in
      match c, args with
      | _, [] => None
      | CNot, x :: _ => if is_lit_body x then Some (if sign then f else x) else negpush x (negb sign)
      | _, [_] => None
      | CAnd, _ | COr, _ =>
          match push_all args sign with
          | Some r => Some (Sl (Sa (Con (dual_q sign c)) :: rev r))
          | None => None
          end
      | CImp, _ =>
          match push_imp args with
          | Some r => Some (Sl (Sa (Con (if sign then COr else CAnd)) :: rev r))
          | None => None
          end
      | CAll, [v; b] | CEx, [v; b] =>
          match negpush b sign with
          | Some b' => Some (Sl [Sa (Con (dual_q sign c)); v; b'])
          | None => None
          end
      | CEqv, [x; y] =>
          match negpush x (negb sign), negpush y sign, copy_ok x && copy_ok y, negpush x sign, negpush y (negb sign) with
          | Some r1, Some r2, true, Some r3, Some r4 =>
              let o1 := Sa (Con (if sign then CAnd else COr)) in
              let o2 := Sa (Con (if sign then COr else CAnd)) in
              Some (Sl [o1; Sl [o2; r1; r2]; Sl [o2; r3; r4]])
          | _, _, _, _, _ => None
          end
      | _, _ => None
      end
  | _ => Some (if sign then f else mk_not f)
  end.

(** Variable lists *)
Fixpoint atoms_of (l : list sx) : option (list atom) :=
  match l with
  | [] => Some []
  | Sa a :: r => match atoms_of r with Some r' => Some (a :: r') | None => None end
  | _ => None
  end.
Definition var_list (v : sx) : option (list atom) := match v with Sl l => atoms_of l | Sa _ => None end.

(** wr_freeoccs_invars 561-577: strings only *)
Definition in_vars (vars : list atom) (a : atom) : bool := existsb (fun v => String.eqb (astr a) (astr v)) vars.
(** wr_miniscope_varssubset 579-618 *)
Definition vars_subset (vars bound : list atom) : list atom :=
  if existsb (in_vars bound) vars then
    match vars with
    | [_] => []
    | _ => rev (filter (fun v => negb (in_vars bound v)) vars)
    end
  else vars.
(** wr_add_freeoccs 620-646 *)
Definition add_occs (vars occs : list atom) : list atom :=
  match occs, vars with
  | [], _ => vars
  | _, [] => occs
  | _, _ => fold_left (fun res v => if in_vars vars v then res else v :: res) occs vars
  end.
(** wr_miniscope_freeoccs 502-559 *)
Fixpoint freeoccs (vars : list atom) (f : sx) {struct f} : option (list atom) :=
  match vars with
  | [] => Some []
  | _ :: _ =>
      match f with
      | Sa a => Some (if in_vars vars a then [a] else [])
      | Sl [] => None
      | Sl ((Sl (_ :: _)) as g :: r) => match r with [] => freeoccs vars g | _ => None end
      | Sl (h :: args) =>
          let fix occs_all (acc : list atom) (l : list sx) : option (list atom) :=
            match l with
            | [] => Some acc
            | x :: r => match freeoccs vars x with Some o => occs_all (add_occs acc o) r | None => None end
            end in
          match h with
          | Sa (Con CAll) | Sa (Con CEx) =>
              match args with
              | v :: b :: _ => match var_list v with Some vs => freeoccs (vars_subset vars vs) b | None => None end
              | _ => None
              end
          | Sa (Con _) => occs_all [] args
          | Sa a => occs_all (if in_vars vars a then [a] else []) args
          | Sl _ => None
          end
      end
  end.

(** 450-489: the quantifier [q] over [vs] applied to the miniscoped body *)
Definition scope_in (q : conn) (v : sx) (body : sx) : option sx :=
  match body with
  | Sa _ => Some body
  | Sl [] => Some body
  | Sl (h :: args) =>
      match var_list v with
      | None => None
      | Some vs =>
          let mkq vars f := Sl [Sa (Con q); Sl (map Sa vars); f] in
          match h with
          | Sa (Con CAnd) | Sa (Con COr) =>
              match args with
              | x :: y :: _ =>
                  match freeoccs vs x, freeoccs vs y with
                  | Some [], Some [] => Some body
                  | Some [], Some v2 => Some (Sl [h; x; mkq v2 y])
                  | Some v1, Some [] => Some (Sl [h; mkq v1 x; y])
                  | Some v1, Some v2 =>
                      if match h, q with Sa (Con CAnd), CAll | Sa (Con COr), CEx => true | _, _ => false end
                      then Some (Sl [h; mkq v1 x; mkq v2 y])
                      else Some (mkq (add_occs v1 v2) body)
                  | _, _ => None
                  end
              | _ => None
              end
          | _ =>
              match freeoccs vs body with
              | Some [] => Some body
              | Some vs' => Some (mkq vs' body)
              | None => None
              end
          end
      end
  end.
(** wr_clausify_miniscope 407-500 *)
Fixpoint miniscope (f : sx) : option sx :=
  match f with
  | Sa _ => Some f
  | Sl [] => None
  | Sl ((Sl (_ :: _)) as g :: r) => match r with [] => miniscope g | _ => None end
  | Sl (Sa (Con c) :: args) =>
      match c with
      | CNot => Some f
      | CAll | CEx =>
          match args with
          | v :: b :: _ => match miniscope b with Some b' => scope_in c v b' | None => None end
          | _ => None
          end
      | _ =>
          match args with
          | [x; y] =>
              match miniscope x, miniscope y with
              | Some x', Some y' => Some (Sl [Sa (Con c); x'; y'])
              | _, _ => None
              end
          | _ => Some f
          end
      end
  | _ => Some f
  end.

(** wr_clausify_append_vars 729-785: [assoc] pairs a bound atom with its value *)
Definition assoc := list (atom * sx).
(** 771-777: the new universal variables, last first *)
Definition univ_vars (al : assoc) : list sx :=
  fold_left (fun t p => match snd p with Sa (Sym TVar s) => Sa (Sym TVar s) :: t | _ => t end) al [].
Definition skolem_term (al : assoc) (k : nat) : sx :=
  match univ_vars al with [] => Sa (skatom k) | t => Sl (Sa (skatom k) :: t) end.
Fixpoint append_vars (al new : assoc) (vs : list atom) (all : bool) (n k : nat) : option (assoc * nat * nat) :=
  match vs with
  | [] => Some (new, n, k)
  | v :: r =>
      if bindable v then
        if all then append_vars al ((v, Sa (xatom (S n))) :: new) r all (S n) k
        else append_vars al ((v, skolem_term al (S k)) :: new) r all n (S k)
      else None
  end.
Fixpoint lookup (al : assoc) (a : atom) : option sx :=
  match al with
  | [] => None
  | (v, t) :: r => if atom_eqb v a then Some t else lookup r a
  end.
(** wr_clausify_replace_vars 787-826 *)
Fixpoint replace_vars (al : assoc) (t : sx) : sx :=
  match t with
  | Sa a => if bindable a then match lookup al a with Some x => x | None => t end else t
  | Sl l => Sl (map (replace_vars al) l)
  end.
(** wr_clausify_skolemize 660-727; [n]: varnr, [k]: parse_skolem_nr *)
Fixpoint skolemize (f : sx) (al : assoc) (n k : nat) {struct f} : option (sx * nat * nat) :=
  match f with
  | Sa _ => Some (f, n, k)
  | Sl [] => None
  | Sl ((Sl (_ :: _)) as g :: r) => match r with [] => skolemize g al n k | _ => None end
  | Sl (Sa (Con c) :: args) =>
      match c with
      | CNot => Some (replace_vars al f, n, k)
      | CAll | CEx =>
          match args with
          | v :: b :: _ =>
              match var_list v with
              | Some vs =>
                  match append_vars al al vs (match c with CAll => true | _ => false end) n k with
                  | Some (al', n', k') => skolemize b al' n' k'
                  | None => None
                  end
              | None => None
              end
          | _ => None
          end
      | _ =>
          match args with
          | [x; y] =>
              match skolemize x al n k with
              | Some (x', n1, k1) =>
                  match skolemize y al n1 k1 with
                  | Some (y', n2, k2) => Some (Sl [Sa (Con c); x'; y'], n2, k2)
                  | None => None
                  end
              | None => None
              end
          | _ => None
          end
      end
  | _ => Some (replace_vars al f, n, k)
  end.

(** wr_clausify_dist_complexity 1063-1113 *)
Fixpoint complexity (f : sx) : nat :=
  match f with
  | Sl [(Sl (_ :: _)) as g] => complexity g
  | Sl [Sa (Con CAnd); x; y] | Sl [Sa (Con COr); x; y] => S (complexity x + complexity y)
  | _ => 0
  end.
Definition makedef_threshold := 10.
Definition varcollect_size := 1000.
(** wr_clausify_collect_vars 1218-1255, first found first; the same variable is always the same
    pointer, since skolemization puts one atom everywhere *)
Fixpoint collect_vars (t : sx) (acc : list atom) : list atom :=
  match t with
  | Sa a => if is_tvar a && negb (existsb (atom_eqb a) acc) then (acc ++ [a])%list else acc
  | Sl l => fold_left (fun acc x => collect_vars x acc) l acc
  end.
Definition def_term (m : nat) (vs : list atom) : sx :=
  match vs with [] => Sa (dfatom m) | _ => Sl (Sa (dfatom m) :: map Sa (rev vs)) end.
(** State: parse_newpred_nr and the definitions so far *)
Record dst := mkd { d_nr : nat; d_defs : option sx }.
Definition add_def (d : option sx) (f : sx) : option sx :=
  match d with None => Some f | Some g => Some (mk_and g f) end.
Definition as_and (f : sx) : option (sx * sx) :=
  match f with Sl (Sa (Con CAnd) :: x :: y :: _) => Some (x, y) | _ => None end.
Definition has_and (f : sx) : bool := match f with Sl (Sa (Con CAnd) :: _) => true | _ => false end.

(** wr_clausify_makedef 1115-1216; [dist]: wr_clausify_distribute with indef 1 *)
Definition makedef (dist : sx -> dst -> option (sx * dst)) (f : sx) (s : dst) : option (sx * dst) :=
  let m := S (d_nr s) in
  let vs := collect_vars f [] in
  if Nat.leb varcollect_size (List.length vs) then None
  else
    let def := def_term m vs in
    match negpush def false, negpush f false with
    | Some nd, Some nf =>
        match dist (mk_or nd f) (mkd m (d_defs s)) with
        | Some (r1, s1) =>
            match dist (mk_or def nf) s1 with
            | Some (r2, s2) => Some (def, mkd (d_nr s2) (add_def (d_defs s2) (mk_and r1 r2)))
            | None => None
            end
        | None => None
        end
    | _, _ => None
    end.

(** wr_clausify_distribute 851-1050; [strat]: parse_newpred_strat.  Out of fuel: None. *)
Fixpoint distribute (fuel : nat) (strat : bool) (f : sx) (indef : bool) (s : dst) : option (sx * dst) :=
  match fuel with
  | O => None
  | S fuel =>
      let makedef := makedef (fun f s => distribute fuel strat f true s) in
      match f with
      | Sa _ => Some (f, s)
      | Sl [] => None
      | Sl ((Sl (_ :: _)) as g :: r) => match r with [] => distribute fuel strat g indef s | _ => None end
      | Sl (Sa (Con c) :: args) =>
          match c, args with
          | CNot, _ => Some (f, s)
          | CAnd, [x; y] =>
              match distribute fuel strat x indef s with
              | Some (x', s1) =>
                  match distribute fuel strat y indef s1 with
                  | Some (y', s2) => Some (mk_and x' y', s2)
                  | None => None
                  end
              | None => None
              end
          | COr, [x; y] =>
              match distribute fuel strat x indef s with
              | Some (x', s1) =>
                  match distribute fuel strat y indef s1 with
                  | Some (y', s2) =>
                      if has_and x' then
                        if has_and y' then
                          match as_and x', as_and y' with
                          | Some (a, b), Some (c, d) =>
                              let hard := if strat && negb indef then complexity a + complexity b + complexity c + complexity d else 0 in
                              if strat && (indef || Nat.leb makedef_threshold hard) then
                                match makedef x' s2 with
                                | Some (d1, s3) =>
                                    match makedef y' s3 with
                                    | Some (d2, s4) => Some (mk_or d1 d2, s4)
                                    | None => None
                                    end
                                | None => None
                                end
                              else
                                match distribute fuel strat (mk_or a c) indef s2 with
                                | Some (r3, s3) =>
                                    match distribute fuel strat (mk_or a d) indef s3 with
                                    | Some (r4, s4) =>
                                        match distribute fuel strat (mk_or b c) indef s4 with
                                        | Some (r5, s5) =>
                                            match distribute fuel strat (mk_or b d) indef s5 with
                                            | Some (r6, s6) => Some (mk_and r3 (mk_and r4 (mk_and r5 r6)), s6)
                                            | None => None
                                            end
                                        | None => None
                                        end
                                    | None => None
                                    end
                                | None => None
                                end
                          | _, _ => None
                          end
                        else
                          match as_and x' with
                          | Some (a, b) =>
                              match distribute fuel strat (mk_or a y') indef s2 with
                              | Some (r3, s3) =>
                                  match distribute fuel strat (mk_or b y') indef s3 with
                                  | Some (r4, s4) => Some (mk_and r3 r4, s4)
                                  | None => None
                                  end
                              | None => None
                              end
                          | None => None
                          end
                      else if has_and y' then
                        match as_and y' with
                        | Some (b, a) =>
                            match distribute fuel strat (mk_or a x') indef s2 with
                            | Some (r3, s3) =>
                                match distribute fuel strat (mk_or b x') indef s3 with
                                | Some (r4, s4) => Some (mk_and r3 r4, s4)
                                | None => None
                                end
                            | None => None
                            end
                        | None => None
                        end
                      else Some (mk_or x' y', s2)
                  | None => None
                  end
              | None => None
              end
          | _, _ => None
          end
      | _ => Some (f, s)
      end
  end.

(** wr_is_logconst 1591-1614, wr_is_logtruth 1552-1587: 1 true, -1 false, 0 neither *)
Inductive truth := Yes | No | Neither.
Definition log_const (x : sx) : truth :=
  match x with
  | Sa (Sym TUri s) => if String.eqb s "$true" then Yes else if String.eqb s "$false" then No else Neither
  | _ => Neither
  end.
Definition log_truth (x : sx) : truth :=
  match x with
  | Sa _ => log_const x
  | Sl (Sa (Con CNot) :: a :: _) => match log_const a with Yes => No | No => Yes | Neither => Neither end
  | _ => Neither
  end.
Definition s_true := Sa (Sym TAnon "$true").
Definition is_log_true (x : sx) : bool := match x with Sa (Sym TAnon s) => String.eqb s "$true" | _ => false end.
(** wg_appendlist (dbmpool.c 381-393) *)
Definition append_sx (x y : sx) : option sx :=
  match x, y with Sl a, Sl b => Some (Sl (a ++ b)%list) | _, _ => None end.
(** wr_flatten_logclause_or 1477-1548 *)
Fixpoint flatten_or (f : sx) : option sx :=
  match f with
  | Sa _ => Some (Sl [f])
  | Sl [] => None
  | Sl [(Sl (_ :: _)) as g] => flatten_or g
  | Sl (Sa (Con COr) :: args) =>
      match args with
      | x :: y :: _ =>
          match log_truth x, log_truth y with
          | Neither, Neither =>
              match flatten_or x, flatten_or y with
              | Some a, Some b =>
                  if is_log_true a then Some a else if is_log_true b then Some b else append_sx a b
              | _, _ => None
              end
          | Yes, _ | _, Yes => Some s_true
          | No, _ => flatten_or y
          | _, No => flatten_or x
          end
      | _ => None
      end
  | _ => Some (Sl [f])
  end.
(** wr_flatten_logclause 1404-1461: the list of clauses *)
Fixpoint flatten (f : sx) : option (list sx) :=
  match f with
  | Sa _ => match flatten_or f with Some c => Some [c] | None => None end
  | Sl [] => None
  | Sl [(Sl (_ :: _)) as g] => flatten g
  | Sl (Sa (Con CAnd) :: args) =>
      match args with
      | x :: y :: _ =>
          match flatten x, flatten y with
          | Some a, Some b => Some (a ++ b)%list
          | _, _ => None
          end
      | _ => None
      end
  | _ => match flatten_or f with Some c => Some [c] | None => None end
  end.

(** wr_parse_freeoccs (dbparse.c 816-881); [isv]: whether the syntax reads the name as a variable
    (parse_caps_as_var, parse_question_as_var) *)
Section Free.
Variable isv : string -> bool.
Definition var_like (a : atom) : bool :=
  match a with Sym TVar _ => true | Sym TUri s => isv s | _ => false end.
Fixpoint parse_freeoccs (vars : list atom) (f : sx) {struct f} : list atom :=
  match f with
  | Sa a => if var_like a && negb (in_vars vars a) then [a] else []
  | Sl [] => []
  | Sl ((Sl (_ :: _)) as g :: r) => match r with [] => parse_freeoccs vars g | _ => [] end
  | Sl (h :: args) =>
      let fix occs_all (acc : list atom) (l : list sx) : list atom :=
        match l with
        | [] => acc
        | x :: r => occs_all (add_occs acc (parse_freeoccs vars x)) r
        end in
      match h with
      | Sa (Con CAll) | Sa (Con CEx) =>
          match args with
          | v :: b :: _ => match var_list v with Some vs => parse_freeoccs (vars_subset vs vars) b | None => [] end
          | _ => []
          end
      | _ => occs_all [] args
      end
  end.
(** wr_clausify_formula 85-198; [k], [m]: the Skolem and definition counters *)
Fixpoint clausify (fuel : nat) (strat : bool) (frm : sx) (k m : nat) {struct frm} : option (sx * nat * nat) :=
  match frm with
  | Sa _ => Some (frm, k, m)
  | Sl [] => None
  | Sl (Sa (Con c) :: _) =>
      let fv := parse_freeoccs [] frm in
      let frm' := match fv with [] => frm | _ => Sl [Sa (Con CAll); Sl (map Sa fv); frm] end in
      match negpush frm' true with
      | Some f1 =>
          match miniscope f1 with
          | Some f2 =>
              match skolemize f2 [] 0 k with
              | Some (f3, _, k') =>
                  match distribute fuel strat f3 false (mkd m None) with
                  | Some (f4, s) =>
                      Some (match d_defs s with None => f4 | Some d => mk_and f4 d end, k', d_nr s)
                  | None => None
                  end
              | None => None
              end
          | None => None
          end
      | None => None
      end
  | Sl [(Sl (_ :: _)) as g] =>
      match parse_freeoccs [] frm with [] => clausify fuel strat g k m | _ => None end
  | Sl (Sl (_ :: _) :: _) => None
  | _ => Some (frm, k, m)
  end.
End Free.
