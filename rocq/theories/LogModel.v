(** The parents recorded for simplified and cut clauses: the clauses a simplification uses are
    collected in two vectors, from which the record of the derivation step is made.
    Code: Reasoner/rewrite.c 158-205, 323-352 (rewriters); Reasoner/simp.c 92-138, 164-346 (wr_simplify_cl);
    Reasoner/subsume.c 548, 605-643, 685-723 (cutters of derived clauses);
    Reasoner/history.c 502-533, 124-157 (the record); glb.h 81-82 (sizes of the vectors).
    Simplifications: as in RewriteModel, CutModel, SimpModel, whose searches are repeated here with the
    clause found; store_history is on. *)
From Coq Require Import List ZArith Bool.
From Verif Require Import Terms UnifyModel MatchModel MetaModel BuildModel DeriveModel CutModel DupModel SimpModel Semantics RewriteModel.
Import ListNotations.
Open Scope Z_scope.

(** Clauses used: a unit (negative when [neg]), a two-literal clause. *)
Inductive cutter := KUnit (neg : bool) (a : term) | KDouble (y0 y1 : clit).

(** glb.h 81-82 *)
Definition NROF_CUT := 100%nat.
Definition NROF_REWRITE := 10000.

(** rewrite.c 198-202, 347-351: the vector with its first free index in element 1, from 2; [v] are the
    clauses in it. *)
Definition add_rewriter (r : term * term) (v : list (term * term)) : list (term * term) :=
  if 2 + Z.of_nat (length v) <? NROF_REWRITE - 4 then v ++ [r] else v.
(** simp.c 262-266, 280-284 ([slack] 2) and subsume.c 615-618 ([slack] 1): the vector ended by NULL, with the
    number of cuts counted apart. *)
Record cuts := { ncuts : nat; cvec : list cutter }.
Definition no_cuts : cuts := {| ncuts := 0; cvec := [] |}.
Definition add_cut (slack : nat) (k : cutter) (c : cuts) : cuts :=
  let n := S (ncuts c) in
  {| ncuts := n; cvec := if (n + slack <? NROF_CUT)%nat then cvec c ++ [k] else cvec c |}.
(** history.c 509-512: the elements before the first NULL are read, up to the size of the vector. *)
Definition read_cuts (c : cuts) : list cutter := firstn (NROF_CUT - 1) (cvec c).

(* ---- rewriting, RewriteModel with the vector ---- *)
Section Rewrite.
  Variable sb : stray_env.
  Variable comp : term -> option term.
  Variable rules : term -> list (term * term).
  Definition rlog := list (term * term).

  (** rewrite.c 257-363: the rewriter is added (347-351) before going on *)
  Inductive lookrec := QFound (rule : term * term) | QNone | QStray.
  Fixpoint find_rec (x : term) (l : list (term * term)) : lookrec :=
    match l with
    | [] => QNone
    | (lhs, rhs) :: l' =>
        match equal_term sb lhs x with EYes => QFound (lhs, rhs) | ENo => find_rec x l' | EStray => QStray end
    end.
  Fixpoint constant_rec (n : nat) (x : term) (s : vst) (g : rlog) : wres * rlog :=
    match n with
    | O => (WFuel, g)
    | S n' =>
        match find_rec x (rules x) with
        | QNone => (WOk x s, g)
        | QStray => (WStray, g)
        | QFound r => constant_rec n' (snd r) s (add_rewriter r g)
        end
    end.
  Section Loop.
    Variable f : term -> vst -> rlog -> wres * rlog.
    Fixpoint loop_rec (xs : list term) (s : vst) (g : rlog) : wsres * rlog :=
      match xs with
      | [] => (WsOk [] s, g)
      | x :: xs' =>
          match f x s g with
          | (WOk t s1, g1) =>
              match loop_rec xs' s1 g1 with
              | (WsOk ts s2, g2) => (WsOk (t :: ts) s2, g2)
              | r => r
              end
          | (WIllegal, g1) => (WsIllegal, g1)
          | (WStray, g1) => (WsStray, g1)
          | (WFuel, g1) => (WsFuel, g1)
          end
      end.
  End Loop.
  Section Term.
    Variable down : term -> vst -> rlog -> wres * rlog.
    Variable rc : term -> vst -> rlog -> wres * rlog.
    Variable n : nat.
    Definition next_rec (v : term) (s : vst) (g : rlog) : wres * rlog :=
      match v with TVar _ => (WOk v s, g) | TRec _ => down v s g | TCst _ => rc v s g end.
    (** 198-244: the rewriter has been added *)
    Definition apply_rec (b : term) (s : vst) (g : rlog) : wres * rlog :=
      match b with
      | TVar i => match bank s i with None => (WStray, g) | Some v => next_rec v (clear_varstack s) g end
      | TRec _ =>
          match build_sub comp n b s with
          | WOk v s' => next_rec v (clear_varstack s') g
          | r => (r, g)
          end
      | TCst _ => rc b (clear_varstack s) g
      end.
    Fixpoint try_rec (x : term) (l : list (term * term)) (s : vst) (g : rlog) : wres * rlog :=
      match l with
      | [] => (WOk x s, g)
      | (lhs, rhs) :: l' =>
          match match_term sb lhs x s with
          | MStray => (WStray, g)
          | MDone false s' => try_rec x l' (clear_varstack s') g
          | MDone true s' => apply_rec rhs s' (add_rewriter (lhs, rhs) g)
          end
      end.
  End Term.
  Fixpoint build_rec (n : nat) (x : term) (s : vst) (g : rlog) : wres * rlog :=
    match n with
    | O => (WFuel, g)
    | S n' =>
        match x with
        | TVar _ => (WOk x s, g)
        | TCst _ => constant_rec n' x s g
        | TRec fs =>
            match loop_rec (build_rec n') fs s g with
            | (WsOk ts s1, g1) =>
                match w_computed comp ts s1 with
                | WOk t s2 =>
                    if is_truth t then (WOk t s2, g1)
                    else try_rec (build_rec n') (constant_rec n') n' t (rules (head_of t)) s2 g1
                | r => (r, g1)
                end
            | (WsIllegal, g1) => (WIllegal, g1)
            | (WsStray, g1) => (WStray, g1)
            | (WsFuel, g1) => (WFuel, g1)
            end
        end
    end.
End Rewrite.

(* ---- simplification, SimpModel with both vectors ---- *)
Section Simp.
  Variable sb : stray_env.
  Variable loc : ustore.
  Variable kb : option ustore.
  (** The unit found *)
  Inductive ures := UFound (u : term) | UNone | UStray.
  Fixpoint find_unit (a : term) (us : list term) : ures :=
    match us with
    | [] => UNone
    | u :: us' => match equal_term sb a u with EYes => UFound u | ENo => find_unit a us' | EStray => UStray end
    end.
  Definition find_kb (a : term) (f : ustore -> list term) : ures :=
    match kb with Some k => find_unit a (f k) | None => UNone end.
  (** CutModel.cut_lit with the cutter *)
  Inductive crec := RNo | RCut (k : cutter) | RSubsumed | RStray.
  Definition cut_rec (fwd : bool) (meta : Z) (a : term) : crec :=
    match (if fwd then find_unit a (same_sign meta loc) else UNone) with
    | UStray => RStray
    | UFound _ => RSubsumed
    | UNone =>
        match (if fwd then find_kb a (same_sign meta) else UNone) with
        | UStray => RStray
        | UFound _ => RSubsumed
        | UNone =>
            match find_unit a (opposite_sign meta loc) with
            | UStray => RStray
            | UFound u => RCut (KUnit (negb (meta_is_neg meta)) u)
            | UNone =>
                match find_kb a (opposite_sign meta) with
                | UStray => RStray
                | UFound u => RCut (KUnit (negb (meta_is_neg meta)) u)
                | UNone => RNo
                end
            end
        end
    end.
  (** CutModel.doublecut with the clause found (foundbucket2) *)
  Inductive drec := DFound (y0 y1 : clit) | DNone | DStray.
  Fixpoint double_rec (xw xm : Z) (xcl : list clit) (ds : list (clit * clit)) : drec :=
    match ds with
    | [] => DNone
    | (y0, y1) :: ds' =>
        match doublecut_aux sb xw xm xcl y0 y1 with EYes => DFound y0 y1 | ENo => double_rec xw xm xcl ds' | EStray => DStray end
    end.

  (** Evaluating and rewriting one atom adds to the rewriters. *)
  Variable rw : clit -> rlog -> rwres * rlog.
  Variable dbl : Z -> term -> list (clit * clit).
  Definition st : Type := cuts * rlog.
  Definition fmap (f : slres -> slres) (k : slres * st) : slres * st := (f (fst k), snd k).
  (** simp.c 233-311 *)
  Definition lit_rec (xcl : list clit) (many dc ch : bool) (meta w : Z) (t : term) (go : bool -> st -> slres * st) (s : st) : slres * st :=
    match cut_rec (many || ch) meta t with
    | RStray => (SlStray, s)
    | RSubsumed => (SlDrop, s)
    | RCut k => fmap sl_cut (go dc (add_cut 2 k (fst s), snd s))                       (* 261-266 *)
    | RNo =>
        match (if negb dc && many then double_rec w meta xcl (dbl meta t) else DNone) with
        | DStray => (SlStray, s)
        | DFound y0 y1 => fmap sl_cut (go true (add_cut 2 (KDouble y0 y1) (fst s), snd s))   (* 279-284 *)
        | DNone => fmap (sl_keep (meta, t) ch) (go dc s)
        end
    end.
  (** simp.c 176-312 *)
  Fixpoint loop_simp (xcl : list clit) (many : bool) (ls : list clit) (dc : bool) (s : st) : slres * st :=
    match ls with
    | [] => (SlOk [] false false, s)
    | l :: ls' =>
        let go := loop_simp xcl many ls' in
        match rw l (snd s) with
        | (RwKeep, g) => lit_rec xcl many dc false (lmeta l) (lword l) (latom l) go (fst s, g)
        | (RwIllegal, g) => (SlIllegal, (fst s, g))
        | (RwTo w t ch, g) =>
            if term_eq_dec t (TCst atrue) then
              if meta_is_neg (lmeta l) then fmap sl_cut (go dc (fst s, g)) else (SlDrop, (fst s, g))
            else if term_eq_dec t (TCst afalse) then
              if meta_is_neg (lmeta l) then (SlDrop, (fst s, g)) else fmap sl_cut (go dc (fst s, g))
            else lit_rec xcl many dc ch (lmeta l) w t go (fst s, g)
        end
    end.
  (** The recorded parents besides the clause itself, history.c 502-533 *)
  Record parents := { p_cutters : list cutter; p_rewriters : list (term * term) }.
  Definition history (s : st) : parents := {| p_cutters := read_cuts (fst s); p_rewriters := snd s |}.
  (** simp.c 58-380; the vectors are emptied at 92, 101, 165-166 *)
  Definition simplify_rec (c : scl) : smres * parents :=
    match c with
    | SFact w a =>
        match rw {| lmeta := 4; lword := w; latom := a |} [] with
        | (RwKeep, g) => (SmSame, history (no_cuts, g))
        | (RwIllegal, g) => (SmIllegal, history (no_cuts, g))
        | (RwTo _ t ch, g) =>
            if term_eq_dec t (TCst atrue) then (SmNull, history (no_cuts, g))
            else if term_eq_dec t (TCst afalse) then (SmProof, history (no_cuts, g))      (* 124 *)
            else if ch then (SmClause [(4, t)], history (no_cuts, g)) else (SmSame, history (no_cuts, g))   (* 136 *)
        end
    | SRule ls =>
        let k := loop_simp ls (1 <? length ls)%nat ls false (no_cuts, []) in
        (match fst k with
         | SlDrop => SmNull
         | SlIllegal => SmIllegal
         | SlStray => SmStray
         | SlOk r cuts ch =>
             if cuts || ch then match r with [] => SmProof | _ => SmClause r end else SmSame
         end, history (snd k))                                                            (* 335, 346 *)
    end.

  (** wr_derived_cl_cut_and_subsume with the vector, subsume.c 535-749 *)
  Fixpoint cuts_rec (fwd : bool) (r : list mlit) (c : cuts) : cutall * cuts :=
    match r with
    | [] => (KOk [] 0, c)
    | x :: r' =>
        match cut_rec fwd (fst x) (snd x) with
        | RSubsumed => (KSubsumed, c)
        | RStray => (KStray, c)
        | RCut k =>
            match cuts_rec fwd r' (add_cut 1 k c) with
            | (KOk r2 n, c2) => (KOk ((0, snd x) :: r2) (S n), c2)
            | k2 => k2
            end
        | RNo =>
            match cuts_rec fwd r' c with
            | (KOk r2 n, c2) => (KOk (x :: r2) n, c2)
            | k2 => k2
            end
        end
    end.

  (** strongly_cut_atom, subsume.c 1212-1370, returns the clause; wr_derived_cl_strong_cut adds it after the
      clauses recorded before (prevcuts), 1173-1199. *)
  Inductive fres := FFound (y : term) (s : vst) | FNot (s : vst) | FStray | FFuel.
  Fixpoint strong_atom_rec (nu : nat) (usematch : bool) (x : term) (ys : list term) (s : vst) : fres :=
    match ys with
    | [] => FNot s
    | y :: ys' =>
        if usematch then
          match match_term sb y x s with
          | MDone true s' => FFound y (clear_varstack s')
          | MDone false s' => strong_atom_rec nu usematch x ys' (clear_varstack s')
          | MStray => FStray
          end
        else
          match unify_term nu x y s with
          | Done true s' => FFound y (clear_varstack s')
          | Done false s' => strong_atom_rec nu usematch x ys' (clear_varstack s')
          | OutOfFuel => FFuel
          end
    end.
  Variable cands : bool -> term -> list term.
  Fixpoint strong_rec (nu : nat) (usematch : bool) (r : list mlit) (s : vst) (c : cuts) : stall * cuts :=
    match r with
    | [] => (TOk [] 0 s, c)
    | x :: r' =>
        if fst x =? 0 then
          match strong_rec nu usematch r' s c with
          | (TOk r2 n s2, c2) => (TOk (x :: r2) n s2, c2)
          | k => k
          end
        else
          match strong_atom_rec nu usematch (snd x) (cands (negb (meta_is_neg (fst x))) (snd x)) s with
          | FNot s' =>
              match strong_rec nu usematch r' s' c with
              | (TOk r2 n s2, c2) => (TOk (x :: r2) n s2, c2)
              | k => k
              end
          | FFound y s' =>
              match strong_rec nu usematch r' s' (add_cut 1 (KUnit (negb (meta_is_neg (fst x))) y) c) with
              | (TOk r2 n s2, c2) => (TOk ((0, snd x) :: r2) (S n) s2, c2)
              | k => k
              end
          | FStray => (TStray, c)
          | FFuel => (TFuel, c)
          end
    end.
  (** SimpModel.post with the vector, derive.c 163-260; the cutters recorded beside the two parents of the
      inference, history.c 124-157. *)
  Definition post_rec (fwd strong dups : bool) (nu : nat) (r : list mlit) (s : vst) : pres * list cutter :=
    match cuts_rec fwd r no_cuts with
    | (KSubsumed, c) => (PSubsumed, read_cuts c)
    | (KStray, c) => (PStray, read_cuts c)
    | (KOk r1 n1, c1) =>
        match (if strong then strong_rec nu (1 <? nonground r1)%nat r1 s c1 else (TOk r1 0 s, c1)) with
        | (TStray, c) => (PStray, read_cuts c)
        | (TFuel, c) => (PFuel, read_cuts c)
        | (TOk r2 n2 _, c2) =>
            let r3 := if (0 <? n1)%nat || (0 <? n2)%nat then remove_cuts r2 (n1 + n2) else r2 in
            (match r3 with
             | [] => PProof
             | _ =>
                 if dups && (1 <? length r3)%nat then
                   match find_duplicates sb r3 with Some r4 => PClause r4 | None => PStray end
                 else PClause r3
             end, read_cuts c2)
        end
    end.
End Simp.
