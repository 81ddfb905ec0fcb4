(** Inference rules: binary resolution, factoring, paramodulation, reflexivity resolution,
    and the tautology test, up to and including the literal list of the derived clause.
    Code: Reasoner/resolve.c 79-1331, Reasoner/derive.c 92-200, 613-680, 848-950, 1178-1329.
    Simplifications: memory allocation succeeds; statistics, printing, history and the
    search restrictions (orderings, selection, hyperresolution, set of support) are dropped:
    each rule may be applied to any literal its structural tests admit. *)
From Coq Require Import List ZArith Bool.
From Verif Require Import Terms UnifyModel MatchModel MetaModel BuildModel.
Import ListNotations.
Open Scope Z_scope.

(** A literal of a stored clause: meta word, the encoded word of the atom (its identity in
    memory) and the tree the atom denotes. *)
Record clit := { lmeta : Z; lword : Z; latom : term }.

(** A stored clause: a fact record, or a rule record.  clterm.h 168-186. *)
Inductive scl := SFact (w : Z) (a : term) | SRule (l : list clit).

(** The literals as wr_process_resolve_result_aux sees them, derive.c 1202-1208: the dummy
    meta of a fact is 4. *)
Definition cl_lits (c : scl) : list clit :=
  match c with
  | SFact w a => [{| lmeta := 4; lword := w; latom := a |}]
  | SRule l => l
  end.

Inductive dropped := Tautology | Limit.
Inductive ares := AOk (r : list mlit) (s : bst) | ADrop (why : dropped) (s : bst) | AStray | AFuel.

(** The search for an equal literal among those already built, derive.c 1246-1277. *)
Inductive fres := FSame | FOpposite | FNone | FStray.
Fixpoint find_equal (sb : stray_env) (meta : Z) (newatom : term) (r : list mlit) : fres :=
  match r with
  | [] => FNone
  | x :: r' =>
      match equal_term sb newatom (snd x) with                              (* 1255 *)
      | EYes => if negb (negpolarities meta (fst x)) then FSame             (* 1257-1267 *)
                else FOpposite                                              (* 1268-1274 *)
      | ENo => find_equal sb meta newatom r'
      | EStray => FStray
      end
  end.

Definition w_true : Z := 351.      (* ACONST_TRUE, Db/dballoc.h 568 *)
Definition w_false : Z := 95.      (* ACONST_FALSE, Db/dballoc.h 566 *)

Section Derive.
  Variable sb : stray_env.
  Variable comp : term -> option term.
  Variable bk : Z.
  Variable n : nat.            (* fuel for building *)

  (** What happens to one built literal, derive.c 1230-1283. *)
  Definition add_literal (meta : Z) (newatom : term) (r : list mlit) (s : bst) : ares :=
    let decide :=
      match find_equal sb meta newatom r with
      | FSame => AOk r s
      | FOpposite => ADrop Tautology s
      | FNone => AOk (r ++ [(meta, newatom)]) s                             (* 1278-1283 *)
      | FStray => AStray
      end in
    match newatom with
    | TCst (CImm w) =>
        if w =? w_true then (if meta_is_neg meta then AOk r s else ADrop Tautology s)        (* 1235-1238 *)
        else if w =? w_false then (if meta_is_neg meta then ADrop Tautology s else AOk r s)  (* 1239-1242 *)
        else decide
    | _ => decide
    end.

  (** wr_process_resolve_result_aux, derive.c 1178-1288.  [cut] is cutatom ([None] for the
      call with cutatom 0, which is no atom's word); [repl] is replpath and replterm ([None]
      for replpath -1); [i] is the literal number.  The test for a zero meta (1221-1224) is
      dropped: an encoded small integer is never zero (its low bits are 011). *)
  Fixpoint result_aux (i : Z) (lits : list clit) (cut : option Z) (repl : option (Z * term))
                      (r : list mlit) (s : bst) : ares :=
    match lits with
    | [] => AOk r s
    | l :: lits' =>
        if match cut with Some w => lword l =? w | None => false end        (* 1209-1212 *)
        then result_aux (i + 1) lits' cut repl r s
        else
          let b :=
            match repl with
            | Some (path, rt) =>
                if i =? decode_litnr path                                   (* 1214-1217 *)
                then match breplace comp bk n (decode_pos path) rt (latom l) 0 s with
                     | RpOk t _ s' => BOk t s' | RpIllegal s' => BIllegal s' | RpFuel => BFuel
                     end
                else build comp bk n (latom l) s
            | None => build comp bk n (latom l) s                           (* 1219 *)
            end in
          match b with
          | BFuel => AFuel
          | BIllegal s' => ADrop Limit s'                                   (* 1230-1234 *)
          | BOk newatom s' =>
              match add_literal (lmeta l) newatom r s' with
              | AOk r' s'' => result_aux (i + 1) lits' cut repl r' s''
              | x => x
              end
          end
    end.

  (** Outcome of one inference attempt. *)
  Inductive dres :=
  | DNone                          (* rule not applicable *)
  | DProof                         (* proof_found: the empty clause *)
  | DDropped (why : dropped)
  | DClause (r : list mlit) (s : bst)
  | DStray
  | DFuel.

  (** derive.c 140-200 after both parents are copied; rpos==0 is a proof. *)
  Definition finish (x : ares) : dres :=
    match x with
    | AOk [] _ => DProof
    | AOk r s => DClause r s
    | ADrop why _ => DDropped why
    | AStray => DStray
    | AFuel => DFuel
    end.

  Definition many (c : scl) : bool := (1 <? length (cl_lits c))%nat.

  (** wr_process_resolve_result, derive.c 92-200. *)
  Definition resolve_result (xcl : scl) (xw : Z) (ycl : scl) (yw : Z) (s : vst) : dres :=
    if Nat.eqb (length (cl_lits xcl) + length (cl_lits ycl) - 2) 0 then DProof
    else
      match (if many xcl then result_aux 0 (cl_lits xcl) (Some xw) None [] (start_build s)
             else AOk [] (start_build s)) with
      | AOk r s1 =>
          finish (if many ycl then result_aux 0 (cl_lits ycl) (Some yw) None r s1 else AOk r s1)
      | x => finish x
      end.

  (** One candidate pair of wr_resolve_binary_all_active, resolve.c 79-375: literals of
      opposite polarity (the candidate comes from hash_neg_atoms for a positive literal,
      from hash_pos_atoms for a negative one), atoms unified. *)
  Definition resolve (nu : nat) (xcl : scl) (i : nat) (ycl : scl) (j : nat) (s : vst) : dres :=
    match nth_error (cl_lits xcl) i, nth_error (cl_lits ycl) j with
    | Some xl, Some yl =>
        if negpolarities (lmeta xl) (lmeta yl) then
          match unify_term nu (latom xl) (latom yl) s with
          | Done true s' => resolve_result xcl (lword xl) ycl (lword yl) s'
          | Done false _ => DNone
          | OutOfFuel => DFuel
          end
        else DNone
    | _, _ => DNone
    end.

  (** wr_process_factor_result, derive.c 613-673. *)
  Definition factor_result (lits : list clit) (xw : Z) (s : vst) : dres :=
    if Nat.eqb (length lits - 1) 0 then DProof
    else finish (result_aux 0 lits (Some xw) None [] (start_build s)).

  (** wr_factor, resolve.c 388-461, for one pair i<j. *)
  Definition factor (nu : nat) (cl : scl) (i j : nat) (s : vst) : dres :=
    match cl with
    | SFact _ _ => DNone                                                    (* 408 *)
    | SRule lits =>
        if (i <? j)%nat then
          match nth_error lits i, nth_error lits j with
          | Some xl, Some yl =>
              if negpolarities (lmeta xl) (lmeta yl) then DNone             (* 425 *)
              else if is_rec (latom xl) && is_rec (latom yl) then           (* 435-436 *)
                match unify_term nu (latom xl) (latom yl) s with
                | Done true s' => factor_result lits (lword xl) s'
                | Done false _ => DNone
                | OutOfFuel => DFuel
                end
              else DNone
          | _, _ => DNone
          end
        else DNone
    end.

  Variable eqc : cst.          (* the interned URI "=" without prefix *)

  (** wr_equality_atom, build.c 949-968; [None]: the atom is not a record and the code reads
      a field through it. *)
  Definition equality_atom (a : term) : option bool :=
    match a with
    | TRec (TCst c :: _) => Some (if cst_eq_dec c eqc then true else false)
    | TRec _ => Some false
    | _ => None
    end.

  (** The two arguments used, resolve.c 568-581, 1301-1305: at least two are required. *)
  Definition eq_sides (a : term) : option (term * term) :=
    match a with
    | TRec (_ :: x :: y :: _) => Some (x, y)
    | _ => None
    end.

  (** wr_resolve_equality_reflexive, resolve.c 1270-1331, literal [i]. *)
  Definition reflexive (nu : nat) (cl : scl) (i : nat) (s : vst) : dres :=
    match cl with
    | SFact _ _ => DNone                                                    (* 1288 *)
    | SRule lits =>
        match nth_error lits i with
        | Some xl =>
            if meta_is_neg (lmeta xl) then                                  (* 1296 *)
              match equality_atom (latom xl) with                           (* 1298 *)
              | None => DStray
              | Some false => DNone
              | Some true =>
                  match eq_sides (latom xl) with                            (* 1302-1305 *)
                  | Some (a, b) =>
                      match unify_term nu a b s with                        (* 1308 *)
                      | Done true s' => factor_result lits (lword xl) s'    (* 1318 *)
                      | Done false _ => DNone
                      | OutOfFuel => DFuel
                      end
                  | None => DNone
                  end
              end
            else DNone
        | None => DNone
        end
    end.

  (** wr_process_paramodulate_result, derive.c 848-950; rlen is never 0 for two nonempty
      clauses. *)
  Definition para_result (xcl : scl) (xw : Z) (ycl : scl) (path : Z) (bterm : term) (s : vst) : dres :=
    match (if many xcl then result_aux 0 (cl_lits xcl) (Some xw) None [] (start_build s)
           else AOk [] (start_build s)) with
    | AOk r s1 => finish (result_aux 0 (cl_lits ycl) None (Some (path, bterm)) r s1)
    | x => finish x
    end.

  (** The replaceable subterms of a clause: path code and subterm.
      wr_cl_store_para_terms / wr_cl_store_para_subterms, clstore.c 696-783, and
      wr_paramodulate_into_all_active, resolve.c 899-1183. *)
  Variable deep : bool.
  Fixpoint para_subterms (i : Z) (lits : list clit) : list (Z * term) :=
    match lits with
    | [] => []
    | l :: lits' =>
        (if maxlitnr <? i then []                                           (* 710 *)
         else map (fun e => (encode_termpath i (fst e), snd e)) (fst (positions deep (latom l) 0 0)))
        ++ para_subterms (i + 1) lits'
    end.

  (** One candidate of wr_paramodulate_from_all_active (resolve.c 474-855, [from]=true) or
      of wr_paramodulate_into_subterms_all_active (940-1257, [from]=false): equality literal
      [i] of [xcl] used left to right ([left]=true) or right to left, replaced subterm
      number [k] of [ycl].  The two differ in the order of the arguments of unification. *)
  Definition paramodulate (nu : nat) (xcl : scl) (i : nat) (left from : bool) (ycl : scl) (k : nat) (s : vst) : dres :=
    match nth_error (cl_lits xcl) i, nth_error (para_subterms 0 (cl_lits ycl)) k with
    | Some xl, Some (path, sub) =>
        if meta_is_neg (lmeta xl) then DNone                                (* 549 *)
        else if negb (is_rec (latom xl)) then DNone                         (* 557 *)
        else
          match equality_atom (latom xl), eq_sides (latom xl) with          (* 558, 568-581 *)
          | Some true, Some (a0, b0) =>
              let a := if left then a0 else b0 in                           (* 611-619, 1191-1201 *)
              let b := if left then b0 else a0 in
              if is_var a then DNone                                        (* 644, clstore.c 580-588 *)
              else
                match (if from then unify_term nu a sub s else unify_term nu sub a s) with
                | Done true s' => para_result xcl (lword xl) ycl path b s'
                | Done false _ => DNone
                | OutOfFuel => DFuel
                end
          | _, _ => DNone
          end
    | _, _ => DNone
    end.
End Derive.

(** wr_tautology_cl, derive.c 1290-1329; [None]: stray read in the equality test. *)
Section Taut.
  Variable sb : stray_env.
  Fixpoint taut_inner (x : clit) (ys : list clit) : option bool :=          (* 1311-1326 *)
    match ys with
    | [] => Some false
    | y :: ys' =>
        if negb (Z.land (lmeta x) cansubs_raw =? Z.land (lmeta y) cansubs_raw) then taut_inner x ys'
        else if Bool.eqb (meta_is_neg (lmeta x)) (meta_is_neg (lmeta y)) then taut_inner x ys'
        else match equal_term sb (latom x) (latom y) with
             | EYes => Some true
             | ENo => taut_inner x ys'
             | EStray => None
             end
    end.
  Fixpoint taut_outer (l : list clit) : option bool :=                      (* 1305-1327 *)
    match l with
    | [] => Some false
    | x :: l' =>
        match taut_inner x l' with
        | Some false => taut_outer l'
        | r => r
        end
    end.
  Definition tautology_cl (c : scl) : option bool :=
    match c with SFact _ _ => Some false | SRule l => taut_outer l end.
End Taut.
