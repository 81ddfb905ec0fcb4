(** The clause subsumption test.
    Code: Reasoner/subsume.c 1403-1686; configuration: instgen_strat=0 (glb.c 241),
    ANS_IGNORE defined (subsume.c 54), uniquestrflag=1.  Statistics counters dropped. *)
From Coq Require Import List ZArith Bool.
From Verif Require Import Terms UnifyModel MatchModel MetaModel.
Import ListNotations.
Open Scope Z_scope.

(** A stored clause: a fact record (a single positive ground atom, the record itself), or a
    rule record with (meta, atom) pairs.  clterm.h 168-186. *)
Inductive clause := Fact (a : term) | Rule (l : list mlit).

Inductive sres := SDone (r : bool) (s : vst) | SStray.

Section Subsume.
  Variable sb : stray_env.
  (** [one]: required_answer_nr==1 (the default, glb.c 169); [ans]: the symbol "$ans". *)
  Variable one : bool.
  Variable ans : cst.

  (** "(g->required_answer_nr)==1 && wr_answer_lit(g,lit)", subsume.c 1591, 1603; wr_answer_lit
      is build.c 766-781: the URI at unify_funpos is "$ans" without prefix.  An atom which
      is no record, or an empty one, counts as no answer here; the code would read past it. *)
  Definition ansl (a : term) : bool :=
    match a with
    | TRec (TCst c :: _) => if cst_eq_dec c ans then one else false
    | _ => false
    end.

  (** "if (vc_tmp!=*(g->tmp_unify_vc)) wr_clear_varstack_topslice(g,g->varstack,vc_tmp)",
      subsume.c 1670, 1674; [n] is the trail length at vc_tmp. *)
  Definition undo_to (n : nat) (s : vst) : vst :=
    if Nat.eqb (length (trail s)) n then s else clear_topslice n s.

  (** The loop over the literals of the special clause, subsume.c 1594-1678.  [used] is
      tmp_litinf_vec, [last] is i1+1>=cllen1, [rec] the recursive call on the next literal. *)
  Section Loop.
    Variable rec : (nat -> bool) -> vst -> sres.
    Variable last : bool.
    Variables (m1 : Z) (a1 : term).
    Fixpoint subs_loop (i2 : nat) (l2 : list mlit) (used : nat -> bool) (s : vst) : sres :=
      match l2 with
      | [] => SDone false s                                                  (* 1680 *)
      | (m2, a2) :: l2' =>
          if used i2 then subs_loop (S i2) l2' used s                        (* 1598 *)
          else if sort_meta_bigger m1 m2 && negb (ansl a1) && negb (ansl a2)
          then SDone false s                                                 (* 1615-1625 *)
          else if negb (negpolarities m1 m2) &&
                  ((ansl a1 && ansl a2) || matchable_lit_meta m1 m2) then    (* 1626-1628 *)
            match (if ansl a1 && ansl a2 then MDone true s
                   else match_aux sb a1 a2 s) with                           (* 1639 *)
            | MStray => SStray
            | MDone true s' =>
                let used' := fun j => if Nat.eqb j i2 then true else used j in  (* 1654 *)
                let noback := Nat.eqb (length (trail s')) (length (trail s)) in (* 1655 *)
                match (if last then SDone true s' else rec used' s') with    (* 1656-1658 *)
                | SStray => SStray
                | SDone true s'' => SDone true s''                           (* 1664 *)
                | SDone false s'' =>
                    let s3 := undo_to (length (trail s)) s'' in              (* 1670 *)
                    if noback then SDone false s3                            (* loop condition 1594 *)
                    else subs_loop (S i2) l2' used s3                        (* 1671 *)
                end
            | MDone false s' => subs_loop (S i2) l2' used (undo_to (length (trail s)) s')  (* 1674 *)
            end
          else subs_loop (S i2) l2' used s
      end.
  End Loop.

  (** wr_subsume_cl_aux, subsume.c 1560-1686. *)
  Fixpoint subsume_aux (l1 l2 : list mlit) (used : nat -> bool) (s : vst) {struct l1} : sres :=
    match l1 with
    | [] => SDone false s                                                    (* 1683-1685 *)
    | (m1, a1) :: l1' =>
        subs_loop (subsume_aux l1' l2) (match l1' with [] => true | _ => false end) m1 a1
                  O l2 used s
    end.

  (** Clearing of the trail after a call, subsume.c 1463, 1502 ("if (vc_tmp!=...)") and
      1533.  Clearing an empty trail changes nothing. *)
  Definition finish (r : sres) : sres :=
    match r with SDone b s => SDone b (clear_varstack s) | SStray => SStray end.

  (** Unit general clause, subsume.c 1475-1507. *)
  Fixpoint subs_unit (m1 : Z) (a1 : term) (l2 : list mlit) (s : vst) : sres :=
    match l2 with
    | [] => SDone false s
    | (m2, a2) :: l2' =>
        if sort_meta_bigger m1 m2 then SDone false s
        else if negb (negpolarities m1 m2) && matchable_lit_meta m1 m2 then
          match match_term sb a1 a2 s with
          | MStray => SStray
          | MDone r s' =>
              let s'' := clear_varstack s' in
              if r then SDone true s'' else subs_unit m1 a1 l2' s''
          end
        else subs_unit m1 a1 l2' s
    end.

  (** General clause a fact, special a rule, subsume.c 1433-1446. *)
  Fixpoint subs_fact (a1 : term) (l2 : list mlit) (s : vst) : sres :=
    match l2 with
    | [] => SDone false s
    | (m2, a2) :: l2' =>
        if negb (meta_is_ground m2) then SDone false s
        else if meta_is_neg m2 then subs_fact a1 l2' s
        else match equal_term sb a1 a2 with
             | EStray => SStray
             | EYes => SDone true s
             | ENo => subs_fact a1 l2' s
             end
    end.

  (** wr_subsume_cl, subsume.c 1403-1535. *)
  Definition subsume_cl (c1 c2 : clause) (s : vst) : sres :=
    match c1, c2 with
    | Fact a1, Fact a2 =>
        match equal_term sb a1 a2 with EStray => SStray | EYes => SDone true s | ENo => SDone false s end
    | Fact a1, Rule l2 => subs_fact a1 l2 s
    | Rule l1, Fact a2 =>
        match l1 with
        | [(m1, a1)] =>
            if meta_is_neg m1 then SDone false s
            else finish (match match_term sb a1 a2 s with
                         | MStray => SStray | MDone r s' => SDone r s' end)
        | [] => SDone false s     (* cllen1=0: literal 0 of an empty clause is read; not reached *)
        | _ => SDone false s
        end
    | Rule l1, Rule l2 =>
        match l1 with
        | [(m1, a1)] => subs_unit m1 a1 l2 s
        | _ => if Nat.ltb (length l2) (length l1) then SDone false s          (* 1508 *)
               else finish (subsume_aux l1 l2 (fun _ => false) s)
        end
    end.
End Subsume.
