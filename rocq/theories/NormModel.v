(** Which kept equations rewrite, and where they are found.
    Code: Reasoner/clstore.c 573-597 (wr_cl_store_para_terms), 637-693 (wr_cl_store_term_rewriter),
    Reasoner/rewrite.c 75-120, 262-295 (the bucket); the rewriting itself is RewriteModel.
    Simplifications: an equation is the pair of its sides; only clauses of one positive literal reach
    this point (len==1, 589), with use_rewrite_terms_strat on and queryfocus_strat off; blocked clauses
    are left out of the lists; the chains of a bucket are in any order. *)
From Coq Require Import List ZArith Bool.
From Verif Require Import Terms UnifyModel MatchModel RewriteModel OrdModel OrdSpec.
Import ListNotations.
Open Scope Z_scope.

Definition is_var (t : term) : bool := match t with TVar _ => true | _ => false end.
(** 573, 589-597: the rewriter made of an equation; [n]: fuel of the comparison *)
Definition rewriter (word : cst -> Z) (n : nat) (e : term * term) : list (term * term) :=
  match order_eqterms word n nobind (fst e) (snd e) with
  | Some v => if (v =? 1) && negb (is_var (fst e)) then [e]
              else if (v =? 2) && negb (is_var (snd e)) then [(snd e, fst e)]
              else []
  | None => []
  end.
Definition stored (word : cst -> Z) (n : nat) (eqs : list (term * term)) : list (term * term) :=
  flat_map (rewriter word n) eqs.
(** 652-660: stored under the hash of the function symbol or constant; rewrite.c 75-81 *)
Definition in_bucket (hash : term -> Z) (rs : list (term * term)) (k : term) : list (term * term) :=
  filter (fun r => hash (head_of (fst r)) =? hash k) rs.
(** rewrite.c 83-110, 264-290: the local table, then the shared one *)
Definition rules_at (hash : term -> Z) (loc kb : list (term * term)) (k : term) : list (term * term) :=
  in_bucket hash loc k ++ in_bucket hash kb k.
(** Rewriting with the equations [loc], [kb] *)
Definition rewrite (sb : stray_env) (comp : term -> option term) (word : cst -> Z) (hash : term -> Z) (m : nat)
  (loc kb : list (term * term)) (n : nat) (x : term) (s : vst) : wres :=
  build_rw sb comp (rules_at hash (stored word m loc) (stored word m kb)) n x s.
