(** The saturation search as a transition system over the set of clauses known.
    Code: Reasoner/rgenloop.c 60-560 (wr_genloop: selection, tautology test, simplification,
    inferences with the selected clause), Reasoner/derive.c 92-392, 613-827, 848-1169 (what
    happens to a derived clause), Reasoner/simp.c 58-540.
    One step is one inference with the processing of its result, or one simplification of a
    selected clause.  Which clauses are selected, which literals are tried and in which order,
    the limits, and what is in the look-up stores at a given moment are left open: a run may
    make any choice, so every strategy and every schedule of the code is among the runs.
    Not covered: the propositional sub-solver (prop.c); unit propagation (propagate.c), which
    is never run (glb.c 236: g->propagate is 0 and nothing sets it); answer-literal
    bookkeeping. *)
From Coq Require Import List ZArith Bool.
From Verif Require Import Terms UnifyModel MatchModel MetaModel SubsumeSpec Semantics BuildModel DeriveModel DeriveSpec
  InstModel CutModel CutSpec DupModel SimpModel SimpSpec RewriteModel RewriteSpec.
Import ListNotations.
Open Scope Z_scope.

(** [d] is [c] with variables renamed (wr_build_calc_cl copies into another bank,
    clstore.c/rgenloop.c; the renaming need not be injective here). *)
Definition variant (c d : list literal) : Prop :=
  exists sg, (forall i, exists j, sg i = TVar j) /\ d = map (inst sg) c.

(** What the record of a clause in memory satisfies: a word denotes one atom, and each record
    atom is a block of its own (build.c 60-240 allocates every atom; derive.c 1680-1770); a
    meta word is a nonzero encoded integer computed from the atom (clmeta.c 60-250: equal
    atoms get equal matching bits); variables are numbered below 4000 (glb.h 85-87). *)
Record stored_ok (x : scl) : Prop := {
  so_words : words_ok (cl_lits x);
  so_own : forall i j a b, nth_error (cl_lits x) i = Some a -> nth_error (cl_lits x) j = Some b ->
             i <> j -> is_rec (latom a) = true -> is_rec (latom b) = true -> lword a <> lword b;
  so_metas : forall l, In l (cl_lits x) -> lmeta l <> 0;
  so_bits : forall a b, In a (cl_lits x) -> In b (cl_lits x) -> latom a = latom b ->
             Z.land (lmeta a) cansubs_raw = Z.land (lmeta b) cansubs_raw;
  so_vars : real_clause x }.

Section Search.
  Variable sb : stray_env.
  Variable comp : term -> option term.
  Variable eqc : cst.
  Variable S : signature.
  Variable rv : Z -> Prop.            (* the variables of stored equations: bank 4 *)

  (** A clause is known if it is a copy of a clause kept. *)
  Definition known (K : list scl) (c : list literal) : Prop :=
    exists k, In k K /\ variant (clause_of k) c.

  (** A clause taking part in inferences: rgenloop.c 273, 329 test it for tautology. *)
  Definition parent (K : list scl) (x : scl) : Prop :=
    known K (clause_of x) /\ stored_ok x /\ tautology_cl sb x = Some false.

  Definition no_bindings (s : vst) : Prop := forall v, bank s v = None.

  (** One inference; results are built in variable bank 3. *)
  Inductive infers (K : list scl) : dres -> Prop :=
  | i_resolve nb nu x i y j s : parent K x -> parent K y -> no_bindings s ->
      infers K (resolve sb comp 3 nb nu x i y j s)
  | i_factor nb nu x i j s : parent K x -> no_bindings s -> infers K (factor sb comp 3 nb nu x i j s)
  | i_reflexive nb nu x i s : parent K x -> no_bindings s -> infers K (reflexive sb comp 3 nb eqc nu x i s)
  | i_para nb deep nu x i left from y k s : parent K x -> parent K y -> no_bindings s ->
      infers K (paramodulate sb comp 3 nb eqc deep nu x i left from y k s)
  | i_instgen nb nu x i y j usex s s2 d : parent K x -> parent K y -> no_bindings s ->
      instgen sb comp 3 nb nu x i y j usex s s2 d -> infers K d
  (** rgenloop.c 363-369: numbers for variables of the selected clause. *)
  | i_probe nb x bs : parent K x ->
      (forall v c, In (v, c) bs -> exists l, In l (cl_lits x) /\ In v (tvars (latom l))) ->
      infers K (probe sb comp 3 nb x bs).

  (** The look-up stores hold known clauses. *)
  Definition units_known K (u : ustore) := forall c, In c (unit_clauses u) -> known K c.
  Definition kb_known K (kb : option ustore) := forall c, In c (kb_clauses kb) -> known K c.
  Definition cands_known K (cands : bool -> term -> list term) :=
    forall neg a y, In y (cands neg a) -> known K [(neg, y)].
  Definition doubles_known K (dbl : Z -> term -> list (clit * clit)) :=
    forall m t d, In d (dbl m t) -> known K (double_clause d).

  (** The equations used for rewriting: known unit equations, in either direction. *)
  Definition eqn (l r : term) : list literal := [(false, TRec [TCst eqc; l; r])].
  Definition rules_known K (rules : term -> list (term * term)) :=
    forall key rule, In rule (rules key) -> usable S rv rule /\
      (known K (eqn (fst rule) (snd rule)) \/ known K (eqn (snd rule) (fst rule))).
  (** [rw] evaluates and rewrites the atoms of [ls] with such equations. *)
  Definition rewriting K (rw : clit -> rwres) (ls : list clit) :=
    exists rules, rules_known K rules /\
      forall l w t ch, In l ls -> rw l = RwTo w t ch ->
        apart rv (latom l) /\
        (exists n s s', clean s /\ build_rw sb comp rules n (latom l) s = WOk t s') /\
        (forall l', In l' ls -> lword l' = w -> latom l' = t).

  (** A literal list written as a clause record. *)
  Definition stored (r : list mlit) (c : scl) := variant (derived r) (clause_of c) /\ stored_ok c.

  Inductive event := Report | Learn (c : scl).

  Inductive step (K : list scl) : event -> Prop :=
  | st_proof : infers K DProof -> step K Report
  | st_post_proof r s loc kb fwd strong dups cands nu : infers K (DClause r s) ->
      units_known K loc -> kb_known K kb -> cands_known K cands ->
      post sb loc kb fwd strong dups cands nu r (vars s) = PProof -> step K Report
  | st_keep r s loc kb fwd strong dups cands nu r' c : infers K (DClause r s) ->
      units_known K loc -> kb_known K kb -> cands_known K cands ->
      post sb loc kb fwd strong dups cands nu r (vars s) = PClause r' -> stored r' c -> step K (Learn c)
  | st_double_proof dbl c : known K (clause_of c) -> stored_ok c -> doubles_known K dbl ->
      simplify_doublecut sb dbl c = SmProof -> step K Report
  | st_double dbl c r c' : known K (clause_of c) -> stored_ok c -> doubles_known K dbl ->
      simplify_doublecut sb dbl c = SmClause r -> stored r c' -> step K (Learn c')
  | st_simp_proof loc kb rw dbl c : known K (clause_of c) -> stored_ok c ->
      units_known K loc -> kb_known K kb -> doubles_known K dbl -> rewriting K rw (cl_lits c) ->
      simplify sb loc kb rw dbl c = SmProof -> step K Report
  | st_simp loc kb rw dbl c r c' : known K (clause_of c) -> stored_ok c ->
      units_known K loc -> kb_known K kb -> doubles_known K dbl -> rewriting K rw (cl_lits c) ->
      simplify sb loc kb rw dbl c = SmClause r -> stored r c' -> step K (Learn c').

  (** Runs: clauses are learned, and may be forgotten (subsumption, limits). *)
  Inductive reach (K0 : list scl) : list scl -> Prop :=
  | r_start : reach K0 K0
  | r_learn K c : reach K0 K -> step K (Learn c) -> reach K0 (c :: K)
  | r_forget K K' : reach K0 K -> (forall c, In c K' -> In c K) -> reach K0 K'.

  (** The search reports that a proof was found. *)
  Definition reports (K0 : list scl) : Prop := exists K, reach K0 K /\ step K Report.
End Search.
