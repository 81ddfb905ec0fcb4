(** What happens to a freshly derived literal list before it is stored, and the
    simplification of stored clauses.
    Code: Reasoner/derive.c 163-220 (resolution), 668-741 (factoring), 2021-2053;
    Reasoner/simp.c 58-380, 383-540. *)
From Coq Require Import List ZArith Bool.
From Verif Require Import Terms UnifyModel MatchModel MetaModel BuildModel DeriveModel CutModel DupModel Semantics.
Import ListNotations.
Open Scope Z_scope.

Inductive pres := PProof | PSubsumed | PClause (r : list mlit) | PStray | PFuel.

Section Simp.
  Variable sb : stray_env.
  Variable loc : ustore.
  Variable kb : option ustore.

  (** derive.c 175-218.  [strong] is use_strong_unit_cutoff, [dups] is use_strong_duplicates
      (off for factoring), [fwd] is forward_subsume_derived. *)
  Definition post (fwd strong dups : bool) (cands : bool -> term -> list term) (nu : nat)
      (r : list mlit) (s : vst) : pres :=
    match cut_and_subsume sb fwd loc kb r with                     (* 175 *)
    | KSubsumed => PSubsumed                                       (* 176-185 *)
    | KStray => PStray
    | KOk r1 n1 =>
        match (if strong then strong_cut sb cands nu r1 s else TOk r1 0 s) with   (* 187-190 *)
        | TStray => PStray
        | TFuel => PFuel
        | TOk r2 n2 _ =>
            let r3 := if (0 <? n1)%nat || (0 <? n2)%nat then remove_cuts r2 (n1 + n2) else r2 in   (* 191-202 *)
            match r3 with
            | [] => PProof                                          (* 204-209 *)
            | _ =>
                if dups && (1 <? length r3)%nat then                (* 214-216 *)
                  match find_duplicates sb r3 with
                  | Some r4 => PClause r4
                  | None => PStray
                  end
                else PClause r3
            end
        end
    end.

  (** wr_process_resolve_result_isrulecl, derive.c 2021-2053: a single positive literal whose
      arguments are neither records nor variables is stored as a fact. *)
  Definition flat_arg (t : term) : bool := match t with TCst _ => true | _ => false end.
  Definition is_fact (r : list mlit) : bool :=
    match r with
    | [(meta, TRec (TCst _ :: args))] => negb (meta_is_neg meta) && forallb flat_arg args
    | _ => false
    end.

  (** The outcome of evaluating and rewriting one atom (simp.c 187-224): not attempted,
      WG_ILLEGAL, or the new atom with its word and whether a rewrite was counted. *)
  Inductive rwres := RwKeep | RwIllegal | RwTo (w : Z) (t : term) (rewritten : bool).
  Variable rw : clit -> rwres.
  (** The two-literal clauses in the bucket searched for a literal. *)
  Variable dbl : Z -> term -> list (clit * clit).

  Inductive slres := SlDrop | SlIllegal | SlStray | SlOk (r : list mlit) (cuts rewritten : bool).
  Definition sl_cut (k : slres) : slres :=
    match k with SlOk r _ ch => SlOk r true ch | k => k end.
  Definition sl_keep (x : mlit) (ch : bool) (k : slres) : slres :=
    match k with SlOk r c ch' => SlOk (x :: r) c (ch || ch') | k => k end.

  (** One literal after evaluation, simp.c 233-311: [w], [t] word and atom, [ch] whether
      rewritten; [go dc] does the remaining literals. *)
  Definition simp_lit (xcl : list clit) (many dc ch : bool) (meta w : Z) (t : term) (go : bool -> slres) : slres :=
    match cut_lit sb (many || ch) loc kb meta t with                (* 233-236 *)
    | CStray => SlStray
    | CSubsumed => SlDrop                                           (* 250-253 *)
    | CYes => sl_cut (go dc)                                        (* 254-267 *)
    | CNo =>
        match (if negb dc && many then doublecut sb w meta xcl (dbl meta t) else ENo) with   (* 243-248 *)
        | EStray => SlStray
        | EYes => sl_cut (go true)                                  (* 268-285 *)
        | ENo => sl_keep (meta, t) ch (go dc)                       (* 286-311 *)
        end
    end.

  (** The loop of wr_simplify_cl, simp.c 176-312; [dc] is doublecut_found. *)
  Fixpoint simp_loop (xcl : list clit) (many : bool) (ls : list clit) (dc : bool) : slres :=
    match ls with
    | [] => SlOk [] false false
    | l :: ls' =>
        let go := simp_loop xcl many ls' in
        match rw l with
        | RwKeep => simp_lit xcl many dc false (lmeta l) (lword l) (latom l) go      (* 222-223 *)
        | RwIllegal => SlIllegal                                                      (* 201-204 *)
        | RwTo w t ch =>
            if term_eq_dec t (TCst atrue) then                                        (* 205-212 *)
              if meta_is_neg (lmeta l) then sl_cut (go dc) else SlDrop
            else if term_eq_dec t (TCst afalse) then                                  (* 213-220 *)
              if meta_is_neg (lmeta l) then SlDrop else sl_cut (go dc)
            else simp_lit xcl many dc ch (lmeta l) w t go
        end
    end.

  Inductive smres := SmNull | SmIllegal | SmProof | SmSame | SmClause (r : list mlit) | SmStray.

  (** wr_simplify_cl, simp.c 58-380.  The meta of a fact's literal is as in [cl_lits]. *)
  Definition simplify (c : scl) : smres :=
    match c with
    | SFact w a =>                                                  (* 85-145 *)
        match rw {| lmeta := 4; lword := w; latom := a |} with
        | RwKeep => SmSame                                          (* 142-144 *)
        | RwIllegal => SmIllegal                                    (* 111-115 *)
        | RwTo _ t ch =>
            if term_eq_dec t (TCst atrue) then SmNull               (* 116-119 *)
            else if term_eq_dec t (TCst afalse) then SmProof        (* 120-127 *)
            else if ch then SmClause [(4, t)] else SmSame           (* 129-141 *)
        end
    | SRule ls =>
        match simp_loop ls (1 <? length ls)%nat ls false with
        | SlDrop => SmNull
        | SlIllegal => SmIllegal
        | SlStray => SmStray
        | SlOk r cuts ch =>
            if cuts || ch then                                      (* 320-324 *)
              match r with [] => SmProof | _ => SmClause r end      (* 332-352 *)
            else SmSame
        end
    end.

  (** wr_simplify_doublecut_cl, simp.c 383-540. *)
  Fixpoint dc_loop (xcl ls : list clit) (dc : bool) : slres :=
    match ls with
    | [] => SlOk [] false false
    | l :: ls' =>
        match (if dc then ENo else doublecut sb (lword l) (lmeta l) xcl (dbl (lmeta l) (latom l))) with   (* 438-443 *)
        | EStray => SlStray
        | EYes => sl_cut (dc_loop xcl ls' true)                     (* 445-460 *)
        | ENo => sl_keep (lmeta l, latom l) false (dc_loop xcl ls' dc)   (* 461-471 *)
        end
    end.
  Definition simplify_doublecut (c : scl) : smres :=
    match c with
    | SFact _ _ => SmSame                                           (* 408 *)
    | SRule ls =>
        if (length ls <? 2)%nat then SmSame                         (* 410 *)
        else match dc_loop ls ls false with
             | SlDrop => SmNull
             | SlIllegal => SmIllegal
             | SlStray => SmStray
             | SlOk r cuts _ =>
                 if cuts then match r with [] => SmProof | _ => SmClause r end   (* 480-507 *)
                 else SmSame
             end
    end.
End Simp.
