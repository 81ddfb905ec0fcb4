(** Cutting off literals of a derived clause with unit clauses, with two-literal clauses, and
    by unification with units.
    Code: Reasoner/subsume.c 535-749, 776-896, 910-1094, 1104-1210, 1212-1370;
    Reasoner/derive.c 1647-1676; Reasoner/clmeta.c 329-347.
    Simplifications: a hash store is the list of the atoms in the bucket searched (that the
    right bucket is searched is a separate property); statistics, printing and the record of
    cutting clauses are dropped; the optional search for an equal propositional clause
    (clhashptr, 725-744) is not modelled. *)
From Coq Require Import List ZArith Bool.
From Verif Require Import Terms UnifyModel MatchModel MetaModel BuildModel DeriveModel.
Import ListNotations.
Open Scope Z_scope.

(** The unit atoms a look-up can see: hash_pos_groundunits and hash_neg_groundunits (or the
    _active_ ones).  wr_add_cl_to_unithash (derive.c 1878-1959) also stores units with
    variables, so nothing is assumed about groundness. *)
Record ustore := { pos_units : list term; neg_units : list term }.

Definition same_sign (meta : Z) (u : ustore) : list term :=
  if meta_is_neg meta then neg_units u else pos_units u.
Definition opposite_sign (meta : Z) (u : ustore) : list term :=
  if meta_is_neg meta then pos_units u else neg_units u.

Inductive cutres := CNo | CYes | CSubsumed | CStray.

Section Cut.
  Variable sb : stray_env.

  (** wr_find_offset_termhash, hash.c 966-1013: the entries of one bucket. *)
  Fixpoint in_units (a : term) (us : list term) : eres :=
    match us with
    | [] => ENo
    | u :: us' => match equal_term sb a u with ENo => in_units a us' | r => r end   (* 1005 *)
    end.

  Definition in_kb (a : term) (kb : option ustore) (f : ustore -> list term) : eres :=
    match kb with Some k => in_units a (f k) | None => ENo end.

  (** One literal: subsume.c 564-724 and 788-895 ([fwd] is forward_subsume_derived, resp.
      subsflag; [kb] is the shared knowledge base if there is one). *)
  Definition cut_lit (fwd : bool) (loc : ustore) (kb : option ustore) (meta : Z) (a : term) : cutres :=
    match (if fwd then in_units a (same_sign meta loc) else ENo) with        (* 568-583 *)
    | EStray => CStray
    | EYes => CSubsumed
    | ENo =>
        match (if fwd then in_kb a kb (same_sign meta) else ENo) with        (* 584-603 *)
        | EStray => CStray
        | EYes => CSubsumed
        | ENo =>
            match in_units a (opposite_sign meta loc) with                   (* 605-621 *)
            | EStray => CStray
            | EYes => CYes
            | ENo =>
                match in_kb a kb (opposite_sign meta) with                   (* 622-643 *)
                | EStray => CStray
                | EYes => CYes
                | ENo => CNo
                end
            end
        end
    end.

  (** wr_derived_cl_cut_and_subsume, subsume.c 535-749: metas of cut literals become 0; the
      number of cuts is returned. *)
  Inductive cutall := KSubsumed | KOk (r : list mlit) (cuts : nat) | KStray.
  Fixpoint cut_and_subsume (fwd : bool) (loc : ustore) (kb : option ustore) (r : list mlit) : cutall :=
    match r with
    | [] => KOk [] 0
    | x :: r' =>
        match cut_lit fwd loc kb (fst x) (snd x) with
        | CSubsumed => KSubsumed
        | CStray => KStray
        | CYes =>
            match cut_and_subsume fwd loc kb r' with
            | KOk r2 n => KOk ((0, snd x) :: r2) (S n)
            | k => k
            end
        | CNo =>
            match cut_and_subsume fwd loc kb r' with
            | KOk r2 n => KOk (x :: r2) n
            | k => k
            end
        end
    end.

  (** wr_process_resolve_result_remove_cuts, derive.c 1647-1676: literals with nonzero meta
      are moved to the front, in place, and the count is reduced by the number of cuts. *)
  Definition is_kept (x : mlit) : bool := negb (fst x =? 0).
  Definition remove_cuts (r : list mlit) (cuts : nat) : list mlit :=
    let front := filter is_kept r in
    firstn (length r - cuts) (front ++ skipn (length front) r).

  (** wr_term_has_vars, clmeta.c 329-347. *)
  Fixpoint has_vars (t : term) : bool :=
    match t with
    | TVar _ => true
    | TCst _ => false
    | TRec fs => existsb has_vars fs
    end.

  (** strongly_cut_atom, subsume.c 1212-1370: the candidates [ys] are the atoms in the
      buckets tried, all of the opposite sign; the branch for reversed equations is dead
      code (iseq is never set). *)
  Inductive stres := SDone (cut : bool) (s : vst) | SStray | SFuel.
  Fixpoint strong_cut_atom (nu : nat) (usematch : bool) (x : term) (ys : list term) (s : vst) : stres :=
    match ys with
    | [] => SDone false s
    | y :: ys' =>
        if usematch then
          match match_term sb y x s with                                       (* 1291 *)
          | MDone true s' => SDone true (clear_varstack s')                     (* 1349 *)
          | MDone false s' => strong_cut_atom nu usematch x ys' (clear_varstack s')
          | MStray => SStray
          end
        else
          match unify_term nu x y s with                                        (* 1293 *)
          | Done true s' => SDone true (clear_varstack s')
          | Done false s' => strong_cut_atom nu usematch x ys' (clear_varstack s')
          | OutOfFuel => SFuel
          end
    end.

  (** The count of non-ground literals, subsume.c 1117-1140: done only if more than one
      literal is left; stops at two. *)
  Fixpoint count_nonground (r : list mlit) : nat :=
    match r with
    | [] => 0
    | x :: r' =>
        if fst x =? 0 then count_nonground r'
        else if has_vars (snd x) then (1 + count_nonground r')%nat
        else count_nonground r'
    end.
  Definition nonground (r : list mlit) : nat :=
    if (1 <? length (filter is_kept r))%nat then count_nonground r else 0.

  (** wr_derived_cl_strong_cut, subsume.c 1104-1210.  [cands neg a] are the unit atoms found
      for atom [a] in hash_neg_units ([neg]=true) or hash_pos_units. *)
  Variable cands : bool -> term -> list term.
  Inductive stall := TOk (r : list mlit) (cuts : nat) (s : vst) | TStray | TFuel.
  Fixpoint strong_loop (nu : nat) (usematch : bool) (r : list mlit) (s : vst) : stall :=
    match r with
    | [] => TOk [] 0 s
    | x :: r' =>
        if fst x =? 0 then                                                      (* 1156 *)
          match strong_loop nu usematch r' s with
          | TOk r2 n s2 => TOk (x :: r2) n s2
          | k => k
          end
        else
          match strong_cut_atom nu usematch (snd x) (cands (negb (meta_is_neg (fst x))) (snd x)) s with
          | SDone b s' =>
              match strong_loop nu usematch r' s' with
              | TOk r2 n s2 => if b then TOk ((0, snd x) :: r2) (S n) s2 else TOk (x :: r2) n s2
              | k => k
              end
          | SStray => TStray
          | SFuel => TFuel
          end
    end.
  Definition strong_cut (nu : nat) (r : list mlit) (s : vst) : stall :=
    strong_loop nu (1 <? nonground r)%nat r s.

  (** ** Cutting with a two-literal clause *)

  Definition same_cansubs (m1 m2 : Z) : bool :=
    Z.land m1 cansubs_raw =? Z.land m2 cansubs_raw.

  (** The loop state of wr_atom_doublecut_aux, subsume.c 1026-1029; [None] for -1. *)
  Record dcst := { posm : bool; negm : bool; iused : option nat; jused : option nat }.
  Definition used (o : option nat) (i : nat) : bool := match o with Some k => Nat.eqb k i | None => false end.

  Inductive dcres := DcReturn | DcGo (d : dcst) | DcStray.

  (** One iteration of the inner loop, subsume.c 1042-1089: literal [y] number [i] of the
      two-literal clause, literal [l] number [j] of the clause, cut literal (xw, xm). *)
  Definition dc_step (xw xm : Z) (i : nat) (y : clit) (j : nat) (l : clit) (d : dcst) : dcres :=
    if negb (xw =? lword l) && Bool.eqb (meta_is_neg (lmeta y)) (meta_is_neg (lmeta l)) then   (* 1046-1048 *)
      if negb (used (jused d) j) && negb (used (iused d) i) && same_cansubs (lmeta y) (lmeta l) then
        match equal_term sb (latom y) (latom l) with                            (* 1050-1052 *)
        | EStray => DcStray
        | ENo => DcGo d
        | EYes => if negm d then DcReturn                                       (* 1062-1065 *)
                  else DcGo {| posm := true; negm := negm d; iused := Some i; jused := Some j |}
        end
      else DcGo d
    else
      if (xw =? lword l) && (xm =? lmeta l) && negb (used (jused d) j) && negb (used (iused d) i) &&
         negb (Bool.eqb (meta_is_neg (lmeta y)) (meta_is_neg (lmeta l))) && same_cansubs (lmeta y) (lmeta l) then
        match equal_term sb (latom y) (latom l) with                            (* 1069-1074 *)
        | EStray => DcStray
        | ENo => DcGo d
        | EYes => if posm d then DcReturn                                       (* 1083-1087 *)
                  else DcGo {| posm := posm d; negm := true; iused := Some i; jused := Some j |}
        end
      else DcGo d.

  Fixpoint dc_inner (xw xm : Z) (i : nat) (y : clit) (j : nat) (ls : list clit) (d : dcst) : dcres :=
    match ls with
    | [] => DcGo d
    | l :: ls' =>
        match dc_step xw xm i y j l d with
        | DcGo d' => dc_inner xw xm i y (S j) ls' d'
        | r => r
        end
    end.

  (** wr_atom_doublecut_aux, subsume.c 1010-1094. *)
  Definition doublecut_aux (xw xm : Z) (xcl : list clit) (y0 y1 : clit) : eres :=
    match dc_inner xw xm 0 y0 0 xcl {| posm := false; negm := false; iused := None; jused := None |} with
    | DcReturn => EYes
    | DcStray => EStray
    | DcGo d =>
        match dc_inner xw xm 1 y1 0 xcl d with
        | DcReturn => EYes
        | DcStray => EStray
        | DcGo _ => ENo
        end
    end.

  (** wr_atom_doublecut, subsume.c 910-1008: the clauses of the bucket are tried in turn. *)
  Fixpoint doublecut (xw xm : Z) (xcl : list clit) (ds : list (clit * clit)) : eres :=
    match ds with
    | [] => ENo
    | (y0, y1) :: ds' =>
        match doublecut_aux xw xm xcl y0 y1 with
        | ENo => doublecut xw xm xcl ds'
        | r => r
        end
    end.
End Cut.
