(** What evaluation, rewriting and the stores may be assumed to satisfy in a simplification. *)
From Coq Require Import List ZArith Bool.
From Verif Require Import Terms SubsumeSpec Semantics MetaModel DeriveModel DeriveSpec CutModel CutSpec SimpModel.
Import ListNotations.
Open Scope Z_scope.

(** A word denotes one atom. *)
Definition words_ok (ls : list clit) : Prop :=
  forall x y, In x ls -> In y ls -> lword x = lword y -> latom x = latom y.

(** Evaluation and rewriting of the literals in [ls] keep truth in [M], and a word still
    denotes one atom. *)
Definition rw_keeps (eqc : cst) (M : interp) (rw : clit -> rwres) (ls : list clit) : Prop :=
  forall l w t ch, In l ls -> rw l = RwTo w t ch ->
    (forall v, holds eqc M v t <-> holds eqc M v (latom l)) /\
    (forall l', In l' ls -> lword l' = w -> latom l' = t).

(** The clauses a simplification uses are true in [M]. *)
Definition doubles_true (eqc : cst) (M : interp) (dbl : Z -> term -> list (clit * clit)) : Prop :=
  forall m t d, In d (dbl m t) -> valid_in eqc M (double_clause d).
Definition units_true (eqc : cst) (M : interp) (u : ustore) : Prop :=
  forall c, In c (unit_clauses u) -> valid_in eqc M c.
Definition kb_true (eqc : cst) (M : interp) (kb : option ustore) : Prop :=
  forall c, In c (kb_clauses kb) -> valid_in eqc M c.
(** The units found for a literal by the strong cut: negative ones when [neg]. *)
Definition cands_true (eqc : cst) (M : interp) (cands : bool -> term -> list term) : Prop :=
  forall neg a y, In y (cands neg a) -> foa y = true /\ valid_in eqc M [(neg, y)].
