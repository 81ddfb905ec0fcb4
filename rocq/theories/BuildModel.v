(** Building the literals of a derived clause: bindings applied, variables renamed, built-in
    functions evaluated.
    Code: Reasoner/build.c 288-453, 603-756; set-up Reasoner/derive.c 2150-2170 and
    Reasoner/rgenloop.c 765-785 (build_rename=1, build_rewrite=0; build_subst is 1 in the
    first and 0 in the second, but lines 310 and 389 only test build_subst||build_rename).
    Simplifications: memory allocation succeeds; the header fields copied at 372-373 are not
    part of model terms; [comp] stands for lines 421-436 (wr_computable_termptr /
    wr_compute_from_termptr), [None] being WG_ILLEGAL, and is [Some] when use_comp_funs=0. *)
From Coq Require Import List ZArith Bool.
From Verif Require Import Terms UnifyModel.
Import ListNotations.
Open Scope Z_scope.

Definition first_unreal := 4000.     (* FIRST_UNREAL_VAR_NR, Reasoner/glb.h 87 *)
Definition varsinbank := 1000.       (* NROF_VARSINBANK, Reasoner/glb.h 86 *)

(** The variable banks and trail, and build_rename_vc. *)
Record bst := { vars : vst; vc : Z }.

Inductive bres := BOk (t : term) (s : bst) | BIllegal (s : bst) | BFuel.
Inductive bsres := BsOk (ts : list term) (s : bst) | BsIllegal (s : bst) | BsFuel.

Section Build.
  Variable comp : term -> option term.
  Variable bk : Z.                      (* build_rename_banknr *)

  Section BLoop.
    Variable b : term -> bst -> bres.
    Fixpoint build_loop (xs : list term) (s : bst) : bsres :=    (* 390-407 *)
      match xs with
      | [] => BsOk [] s
      | x :: xs' =>
          match b x s with
          | BOk t s1 =>
              match build_loop xs' s1 with
              | BsOk ts s2 => BsOk (t :: ts) s2
              | r => r
              end
          | BIllegal s1 => BsIllegal s1                          (* 397 *)
          | BFuel => BsFuel
          end
      end.
  End BLoop.

  (** The variable case, build.c 323-340 (and 640-657). *)
  Definition build_var (i : Z) (s : bst) : bres :=
    if i <? first_unreal then
      if varsinbank <=? vc s then BIllegal s                                  (* 327-333 *)
      else BOk (TVar (bk * varsinbank + vc s))                                (* 337 *)
               {| vars := setvar i (TVar (vc s + first_unreal)) (vars s);     (* 336 *)
                  vc := vc s + 1 |}                                           (* 335 *)
    else BOk (TVar (bk * varsinbank + (i - first_unreal))) s.                 (* 339 *)

  (** build.c 421-438 (and 736-746). *)
  Definition computed (ts : list term) (s : bst) : bres :=
    match comp (TRec ts) with Some t => BOk t s | None => BIllegal s end.

  (** wr_build_calc_term, build.c 288-453. *)
  Fixpoint build (n : nat) (x : term) (s : bst) : bres :=
    match n with
    | O => BFuel
    | S n' =>
        match deref n' (bank (vars s)) x with                                 (* 310 *)
        | None => BFuel
        | Some (TCst c) => BOk (TCst c) s                                     (* 317 *)
        | Some (TVar i) => build_var i s
        | Some (TRec fs) =>
            match build_loop (build n') fs s with
            | BsOk ts s' => computed ts s'
            | BsIllegal s' => BIllegal s'
            | BsFuel => BFuel
            end
        end
    end.

  (** Replacement.  [RpOk] also returns the path counter [*path]. *)
  Inductive rres := RpOk (t : term) (path : Z) (s : bst) | RpIllegal (s : bst) | RpFuel.
  Inductive rsres := RsOk (ts : list term) (path : Z) (s : bst) | RsIllegal (s : bst) | RsFuel.

  Definition of_bres (path : Z) (r : bres) : rres :=
    match r with BOk t s => RpOk t path s | BIllegal s => RpIllegal s | BFuel => RpFuel end.

  Section RLoop.
    Variable rb : term -> Z -> bst -> rres.      (* wr_build_calc_term_replace *)
    Variable b : term -> bst -> bres.            (* wr_build_calc_term *)
    Variable replpos : Z.
    Variable incpath : bool.
    (** The argument fields, build.c 696-728 (the first field, 700-704, is in [breplace]). *)
    Fixpoint replace_loop (xs : list term) (path : Z) (s : bst) : rsres :=
      match xs with
      | [] => RsOk [] path s
      | x :: xs' =>
          let path1 := if incpath then path + 1 else path in              (* 706 *)
          match (if path1 <=? replpos                                     (* 709 *)
                 then (if incpath then rb x path1 s else of_bres path1 (b x s))   (* 711, 713 *)
                 else of_bres path1 (b x s)) with                         (* 723 *)
          | RpOk t path2 s1 =>
              match replace_loop xs' path2 s1 with
              | RsOk ts p s2 => RsOk (t :: ts) p s2
              | r => r
              end
          | RpIllegal s1 => RsIllegal s1
          | RpFuel => RsFuel
          end
      end.
  End RLoop.

  Definition is_var (t : term) : bool := match t with TVar _ => true | _ => false end.

  (** wr_build_calc_term_replace, build.c 603-756. *)
  Fixpoint breplace (n : nat) (replpos : Z) (replterm : term) (x : term) (path : Z) (s : bst) : rres :=
    match n with
    | O => RpFuel
    | S n' =>
        if path =? replpos then of_bres path (build n' replterm s)        (* 622-628 *)
        else
          match deref n' (bank (vars s)) x with                           (* 629-630 *)
          | None => RpFuel
          | Some (TCst c) => RpOk (TCst c) path s                         (* 639 *)
          | Some (TVar i) => of_bres path (build_var i s)                 (* 640-657 *)
          | Some (TRec fs) =>
              let incpath := negb (is_var x) in                           (* 615, 632-634 *)
              match fs with
              | [] => of_bres path (computed [] s)
              | h :: args =>
                  match replace_loop (breplace n' replpos replterm) (build n')
                                     replpos incpath args path s with
                  | RsOk ts p s' => of_bres p (computed (h :: ts) s')     (* 703: head copied *)
                  | RsIllegal s' => RpIllegal s'
                  | RsFuel => RpFuel
                  end
              end
          end
    end.
End Build.

(** Several terms built in one session (the literals of one derived clause). *)
Definition build_all (comp : term -> option term) (bk : Z) (n : nat) : list term -> bst -> bsres :=
  build_loop (build comp bk n).

(** State at the start of a session: wr_process_resolve_result_setupsubst, derive.c 2150-2170,
    and wr_process_given_cl_setupsubst, rgenloop.c 765-785: build_rename_vc=0. *)
Definition start_build (s : vst) : bst := {| vars := s; vc := 0 |}.

(** ** The numbering of subterm positions
    wr_cl_store_para_subterms, clstore.c 696-783, and
    wr_paramodulate_into_subterms_all_active, resolve.c 940-1040: the subterms offered for
    replacement with their position numbers, and the counter afterwards.  [deep] is
    prohibit_deep_para.  PARA_INTO_ATOM and PARA_INTO_FUNSYMB are undefined (clstore.h 94-98). *)
Definition maxpos := 60000.      (* PARA_TERMPATH_MAXPOS, clstore.h 101 *)
Definition maxlitnr := 255.      (* PARA_TERMPATH_MAXLITNR, clstore.h 100 *)

Definition is_rec (t : term) : bool := match t with TRec _ => true | _ => false end.

Section Positions.
  Variable deep : bool.
  Definition pos_entry (depth : Z) (path : Z) (t : term) : list (Z * term) :=    (* 757-770 *)
    if (depth <? 1) || (deep && (2 <? depth)) then [] else [(path, t)].
  Section PLoop.
    Variable f : term -> Z -> list (Z * term) * Z.
    Fixpoint pos_loop (xs : list term) (path : Z) : list (Z * term) * Z :=       (* 732-752 *)
      match xs with
      | [] => ([], path)
      | x :: xs' =>
          let (l1, p1) := f x (path + 1) in                                      (* 741-742 *)
          let (l2, p2) := pos_loop xs' p1 in
          (l1 ++ l2, p2)
      end.
  End PLoop.
  Fixpoint positions (t : term) (depth : Z) (path : Z) {struct t} : list (Z * term) * Z :=
    if maxpos <? path then ([], path)                                            (* 710-713 *)
    else
      match t with
      | TVar _ => ([], path)                                                     (* 717 *)
      | TCst _ => (pos_entry depth path t, path)                                 (* 719 *)
      | TRec fs =>
          match fs with
          | [] => (pos_entry depth path t, path)
          | h :: args =>
              let (l0, p0) := if is_rec h then positions h (depth + 1) (path + 1)  (* 740 *)
                              else ([], path) in
              let (l1, p1) := pos_loop (fun x p => positions x (depth + 1) p) args p0 in
              (l0 ++ l1 ++ pos_entry depth path t, p1)
          end
      end.
End Positions.

(** wr_encode_para_termpath and its decoders, clstore.c 785-795, clstore.h 102-104. *)
Definition encode_termpath (litnr pos : Z) : Z := Z.lor (Z.shiftl litnr 16) pos.
Definition decode_litnr (n : Z) : Z := Z.shiftr (Z.land n 16711680) 16.      (* 0xFF0000 *)
Definition decode_pos (n : Z) : Z := Z.land n 65535.                         (* 0xFFFF *)
