(** Instances of clauses: instance generation and arithmetic instantiation.
    Code: Reasoner/derive.c 395-465 (wr_process_instgen_result), 1528-1644
    (wr_process_instgen_result_aux), Reasoner/resolve.c 296-347 (when it is called),
    Reasoner/arithinst.c 642-649 (wr_arith_encode_candidate), 781-855 (wr_arith_probe).
    Simplifications: which variables and numbers are tried, the caches and the limits
    (arithinst.c 60-640, 865-960) are left to the caller; memory allocation succeeds. *)
From Coq Require Import List ZArith Bool.
From Verif Require Import Terms UnifyModel MatchModel MetaModel BuildModel DeriveModel.
Import ListNotations.
Open Scope Z_scope.

(** wr_ground_term, clterm.c 287-308. *)
Fixpoint has_var (t : term) : bool :=
  match t with TVar _ => true | TCst _ => false | TRec fs => existsb has_var fs end.

Section Inst.
  Variable sb : stray_env.
  Variable comp : term -> option term.
  Variable bk : Z.
  Variable n : nat.            (* fuel for building *)

  (** All literals of [cl] under the bindings: the session of derive.c 449-465 and
      arithinst.c 819-829.  wr_process_instgen_result_aux (derive.c 1528-1644) is called with
      replpath -1 and never compares its cutatom, so it is [result_aux] with neither. *)
  Definition instance (cl : scl) (s : vst) : dres :=
    finish (result_aux sb comp bk n 0 (cl_lits cl) None None [] (start_build s)).

  (** The bindings found by instance generation.  Resolution with the same two literals
      comes first (resolve.c 317) and its processing runs in between: it renames variables
      into the unreal range (build.c 324-336), and the strong unit cut may clear what is
      bound (subsume.c 1300, 1349, 1357).  The counter of renamed variables starts at 0 again
      (derive.c 2164), while bindings to renamed variables of the resolvent are still there. *)
  Definition left_over (s s2 : vst) : Prop :=
    forall v, bank s2 v = bank s v \/ bank s2 v = None \/
      (v < first_unreal /\ exists k, 0 <= k < varsinbank /\ bank s2 v = Some (TVar (first_unreal + k))).

  (** wr_process_instgen_result, derive.c 395-465, called from resolve.c 336-347 with usexcl 1
      and 0: literals [i] of [xcl] and [j] of [ycl] are opposite and unify with the bindings
      [s']; the instance is built with [s2], left over from [s'].  The test
      wr_proper_substitution (resolve.c 336) only saves work and is dropped. *)
  Definition instgen (nu : nat) (xcl : scl) (i : nat) (ycl : scl) (j : nat) (usex : bool) (s s2 : vst) (d : dres) : Prop :=
    exists xl yl s', nth_error (cl_lits xcl) i = Some xl /\ nth_error (cl_lits ycl) j = Some yl /\
      negpolarities (lmeta xl) (lmeta yl) = true /\
      unify_term nu (latom xl) (latom yl) s = Done true s' /\ left_over s' s2 /\
      has_var (latom (if usex then xl else yl)) = true /\                    (* 429 *)
      d = instance (if usex then xcl else ycl) s2.

  (** wr_arith_encode_candidate, arithinst.c 642-649: an integer, boxed or not, or a finite
      double.  A small integer has the low bits 011. *)
  Definition number (c : cst) : bool :=
    match c with
    | CImm w => Z.land w 7 =? 3
    | CInt _ => true
    | CDbl (DNum _) => true
    | _ => false
    end.

  (** The bindings of a probe, arithinst.c 798-807; [None]: the probe is given up. *)
  Fixpoint bind_numbers (bs : list (Z * cst)) (s : vst) : option vst :=
    match bs with
    | [] => Some s
    | (v, c) :: bs' =>
        if (v <? 0) || (5 * varsinbank <=? v) then None                      (* 799 *)
        else match bank s v with
             | Some _ => None                                                (* 800 *)
             | None => if number c then bind_numbers bs' (setvar v (TCst c) s) else None   (* 801-806 *)
             end
    end.

  (** wr_arith_probe, arithinst.c 781-855, up to the call of wr_arith_store_result; the
      bindings are cleared before that (846). *)
  Definition probe (cl : scl) (bs : list (Z * cst)) : dres :=
    if (length bs <? 1)%nat || (2 <? length bs)%nat then DNone              (* 787 *)
    else match bind_numbers bs empty_vst with                               (* 796-807 *)
         | None => DNone
         | Some s =>
             match instance cl s with                                       (* 808-834 *)
             | DClause r s' => DClause r {| vars := empty_vst; vc := vc s' |}
             | d => d
             end
         end.
End Inst.
