(** What a recorded step claims: the clause follows from the recorded parents. *)
From Coq Require Import List ZArith Bool.
From Verif Require Import Terms UnifyModel MatchModel SubsumeSpec Semantics MetaModel DeriveModel DeriveSpec CutModel CutSpec SimpModel RewriteModel RewriteSpec LogModel.
Import ListNotations.
Open Scope Z_scope.

(** The clause a cutter is. *)
Definition cutter_clause (k : cutter) : list literal :=
  match k with KUnit neg a => [(neg, a)] | KDouble y0 y1 => double_clause (y0, y1) end.
(** All parents are true in [M]. *)
Definition parents_true (eqc : cst) (M : interp) (p : parents) : Prop :=
  (forall k, In k (p_cutters p) -> valid_in eqc M (cutter_clause k)) /\
  (forall r, In r (p_rewriters p) -> rule_true M r).
(** The evaluation and rewriting of a literal is justified by the rewriters it records: unless the vector got full,
    the atom keeps its value wherever the recorded equations are true. *)
Definition rw_recorded (rw : clit -> rlog -> rwres * rlog) (ok : interp -> Prop) (eqc : cst) (ls : list clit) : Prop :=
  forall l g r g', In l ls -> rw l g = (r, g') -> incl g g' /\ (length g <= length g')%nat /\
  forall w t ch, r = RwTo w t ch ->
    (forall l', In l' ls -> lword l' = w -> latom l' = t) /\
    (Z.of_nat (length g') < 9994 -> forall M, ok M -> (forall q, In q g' -> rule_true M q) -> forall v, holds eqc M v t <-> holds eqc M v (latom l)).

(** Literals are evaluated and rewritten by the rewriting of LogModel. *)
Definition rw_by (sb : stray_env) (comp : term -> option term) (rules : term -> list (term * term)) (rw : clit -> rlog -> rwres * rlog) : Prop :=
  forall l g r g', rw l g = (r, g') ->
  match r with
  | RwTo _ t _ => exists n s s', clean s /\ build_rec sb comp rules n (latom l) s g = (WOk t s', g')
  | RwIllegal => exists n s k, clean s /\ build_rec sb comp rules n (latom l) s g = (k, g')
  | RwKeep => g' = g
  end.
(** A word denotes one atom. *)
Definition new_words (rw : clit -> rlog -> rwres * rlog) (ls : list clit) : Prop :=
  forall l g w t ch g', In l ls -> rw l g = (RwTo w t ch, g') -> forall l', In l' ls -> lword l' = w -> latom l' = t.
(** Literals are of first-order logic, with variables of their own. *)
Definition lits_fit (S : signature) (rv : Z -> Prop) (ls : list clit) : Prop :=
  forall l, In l ls -> sig_atom S (latom l) /\ apart rv (latom l).
(** A recorded cutter is one of the clauses there are. *)
Definition is_there (loc : ustore) (kb : option ustore) (dbl : Z -> term -> list (clit * clit)) (cands : bool -> term -> list term) (k : cutter) : Prop :=
  match k with
  | KUnit neg a => In [(neg, a)] (unit_clauses loc ++ kb_clauses kb) \/ exists b, In a (cands neg b)
  | KDouble y0 y1 => exists m t, In (y0, y1) (dbl m t)
  end.
