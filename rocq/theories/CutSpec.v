(** The premises used by cut-offs, as clauses. *)
From Coq Require Import List ZArith Bool.
From Verif Require Import Terms SubsumeSpec Semantics MetaModel DeriveModel DeriveSpec CutModel.
Import ListNotations.
Open Scope Z_scope.

(** The unit clauses of a store. *)
Definition unit_clauses (u : ustore) : list (list literal) :=
  map (fun a => [(false, a)]) (pos_units u) ++ map (fun a => [(true, a)]) (neg_units u).
Definition kb_clauses (kb : option ustore) : list (list literal) :=
  match kb with Some u => unit_clauses u | None => [] end.

(** Two-literal clauses. *)
Definition double_clause (d : clit * clit) : list literal := [lit_of_clit (fst d); lit_of_clit (snd d)].

(** The literals that are not marked as cut. *)
Definition unmarked (r : list mlit) : list literal := derived (filter is_kept r).

(** Every literal has a meta word (an encoded integer is never 0). *)
Definition with_metas (r : list mlit) : Prop := forall x, In x r -> fst x <> 0.
