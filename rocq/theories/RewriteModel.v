(** Rewriting with unit equations during clause simplification.
    Code: Reasoner/rewrite.c 57-363, Reasoner/build.c 288-453 with build_rewrite=1.
    Simplifications: the two hash stores (local and shared) and the test for blocked
    clauses are folded into [rules k], the list of usable (left side, right side) pairs in
    the bucket of [k]; which side is which is CLTERM_HASHNODE_PATH_POS (168-174).  The
    settings are build_subst=0, build_rename=0 (derive.c 2194-2203, simp.c 170-191); for
    fact clauses build_rename is 1 but these have no variables.  Memory allocation succeeds. *)
From Coq Require Import List ZArith Bool.
From Verif Require Import Terms UnifyModel MatchModel BuildModel.
Import ListNotations.
Open Scope Z_scope.

(** [WStray]: undefined read; [WIllegal]: WG_ILLEGAL. *)
Inductive wres := WOk (t : term) (s : vst) | WIllegal | WStray | WFuel.
Inductive wsres := WsOk (ts : list term) (s : vst) | WsIllegal | WsStray | WsFuel.

Definition w_atrue : term := TCst (CImm 351).
Definition w_afalse : term := TCst (CImm 95).
Definition is_truth (t : term) : bool :=
  match t with TCst (CImm w) => (w =? 351) || (w =? 95) | _ => false end.

Section Rewrite.
  Variable sb : stray_env.
  Variable comp : term -> option term.
  Variable rules : term -> list (term * term).

  (** The first rule whose left side equals [x], rewrite.c 302-323. *)
  Inductive lookres := LFound (rhs : term) | LNone | LStray.
  Fixpoint find_rule (x : term) (l : list (term * term)) : lookres :=
    match l with
    | [] => LNone
    | (lhs, rhs) :: l' =>
        match equal_term sb lhs x with
        | EYes => LFound rhs
        | ENo => find_rule x l'
        | EStray => LStray
        end
    end.

  (** wr_rewrite_constant, rewrite.c 257-363. *)
  Fixpoint rewrite_constant (n : nat) (x : term) (s : vst) : wres :=
    match n with
    | O => WFuel
    | S n' =>
        match find_rule x (rules x) with
        | LNone => WOk x s                                        (* 362 *)
        | LStray => WStray
        | LFound b => rewrite_constant n' b s                     (* 353 *)
        end
    end.

  Section WLoop.
    Variable f : term -> vst -> wres.
    Fixpoint w_loop (xs : list term) (s : vst) : wsres :=
      match xs with
      | [] => WsOk [] s
      | x :: xs' =>
          match f x s with
          | WOk t s1 =>
              match w_loop xs' s1 with
              | WsOk ts s2 => WsOk (t :: ts) s2
              | r => r
              end
          | WIllegal => WsIllegal
          | WStray => WsStray
          | WFuel => WsFuel
          end
      end.
  End WLoop.

  (** build.c 421-438: built-in functions; the result is rewritten further unless it is one
      of the truth constants (432-433). *)
  Definition w_computed (ts : list term) (s : vst) : wres :=
    match comp (TRec ts) with Some t => WOk t s | None => WIllegal end.

  (** wr_build_calc_term with build_subst=1, build_rename=0, build_rewrite=0 (rewrite.c
      213-218): the right side is instantiated. *)
  Fixpoint build_sub (n : nat) (x : term) (s : vst) : wres :=
    match n with
    | O => WFuel
    | S n' =>
        match deref n' (bank s) x with                            (* build.c 310 *)
        | None => WFuel
        | Some (TRec fs) =>
            match w_loop (build_sub n') fs s with
            | WsOk ts s' => w_computed ts s'
            | WsIllegal => WIllegal
            | WsStray => WStray
            | WsFuel => WFuel
            end
        | Some t => WOk t s                                       (* 313-320 *)
        end
    end.

  (** The head symbol whose bucket is searched, rewrite.c 75-81. *)
  Definition head_of (x : term) : term :=
    match x with TRec (f :: _) => f | _ => x end.

  Section Term.
    (** One level down: wr_build_calc_term with rewriting on, and wr_rewrite_constant. *)
    Variable down : term -> vst -> wres.
    Variable rc : term -> vst -> wres.
    Variable n : nat.

    (** The right side of the matching rule, rewrite.c 210-244. *)
    Definition apply_rule (b : term) (s : vst) : wres :=
      match b with
      | TVar i =>
          match bank s i with
          | None => WStray                                        (* 211: UNASSIGNED used as a term *)
          | Some v =>
              match v with
              | TVar _ => WOk v (clear_varstack s)                (* 236-238 *)
              | TRec _ => down v (clear_varstack s)               (* 239-241 *)
              | TCst _ => rc v (clear_varstack s)                 (* 243 *)
              end
          end
      | TRec _ =>
          match build_sub n b s with                              (* 213-221 *)
          | WOk v s' =>
              match v with
              | TVar _ => WOk v (clear_varstack s')
              | TRec _ => down v (clear_varstack s')
              | TCst _ => rc v (clear_varstack s')
              end
          | r => r
          end
      | TCst _ => rc b (clear_varstack s)                         (* 224-225 *)
      end.

    (** The bucket, rewrite.c 113-246. *)
    Fixpoint try_rules (x : term) (l : list (term * term)) (s : vst) : wres :=
      match l with
      | [] => WOk x s                                             (* 253 *)
      | (lhs, rhs) :: l' =>
          match match_term sb lhs x s with                        (* 149 *)
          | MStray => WStray
          | MDone false s' => try_rules x l' (clear_varstack s')  (* 155 *)
          | MDone true s' => apply_rule rhs s'
          end
      end.
  End Term.

  (** wr_rewrite_term (rewrite.c 57-254) inlined into wr_build_calc_term (build.c 288-453,
      build_rewrite=1). *)
  Fixpoint build_rw (n : nat) (x : term) (s : vst) : wres :=
    match n with
    | O => WFuel
    | S n' =>
        match x with
        | TVar _ => WOk x s                                       (* 319-320 *)
        | TCst _ => rewrite_constant n' x s                       (* 314-315 *)
        | TRec fs =>
            match w_loop (build_rw n') fs s with                  (* 390-407 *)
            | WsOk ts s1 =>
                match w_computed ts s1 with                       (* 421-438 *)
                | WOk t s2 =>
                    if is_truth t then WOk t s2                   (* 432-433 *)
                    else try_rules (build_rw n') (rewrite_constant n') n' t (rules (head_of t)) s2   (* 444 *)
                | r => r
                end
            | WsIllegal => WIllegal
            | WsStray => WStray
            | WsFuel => WFuel
            end
        end
    end.
End Rewrite.
