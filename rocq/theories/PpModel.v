(** Propositional instances of clauses: Reasoner/prop.c 62-276 (wr_cl_create_propinst, wr_make_get_propvar),
    338-462 (the store of grounded atoms), 876-955 (wr_equal_grounded_term); hash.c 322-355, 422-427 with
    use_prop_constant set; glb.c 277, 650-655.

    The strategies instgen and propgen make, of each clause given to the search or kept by it, the instance in
    which all variables are one constant, number its atoms, remove the literals that are false by the unit
    clauses so far, and collect the result.

    Simplifications: allocation succeeds.  A clause is the list of its literals; a fact (107-110) is a clause of
    one positive literal.  A bucket of the store is the list of its entries in order; the last entry of a full
    bucket is seen, since the two words after its first make the vector grow (442).  A record atom is compared by
    its fields; equal words give equal trees (891, 895).  The constant (82-86) is that of one run: the most used
    one, or 1.  The vectors varvals and groundings begin with [cap] and twice [cap] places (glb.c 652-653,
    NROF_PROP_VARVALS_ELS); the others are reallocated correctly and are lists here. *)
From Coq Require Import List ZArith Bool.
From Verif Require Import Word64 Terms MatchModel HashModel SubsumeSpec.
Import ListNotations.
Open Scope Z_scope.

(** Equality of two atoms after grounding, prop.c 876-955, with unify_samelen = 1, unify_maxuseterms = 0.  A
    record against a long string: the tag bits are equal (903) and isdatarec is tested (912). *)
Section Grounded.
  Variables xg yg : cst.
  Section Loop.
    Variable eq : term -> term -> bool.
    Fixpoint grounded_loop (xs ys : list term) : bool :=                 (* 947-952 *)
      match xs, ys with
      | a :: xs', b :: ys' => if eq a b then grounded_loop xs' ys' else false
      | _, _ => true
      end.
  End Loop.
  Definition ground_cst (x : term) (g : cst) : option cst :=             (* 893-894 *)
    match x with TVar _ => Some g | TCst c => Some c | TRec _ => None end.
  Fixpoint equal_grounded (x y : term) {struct x} : bool :=
    match x with
    | TRec xs =>
        match y with
        | TRec ys => if Nat.eqb (length xs) (length ys) then grounded_loop equal_grounded xs ys else false
        | _ => false
        end
    | _ =>
        match ground_cst x xg, ground_cst y yg with
        | Some c, Some d => equal_cst c d                                (* 895-909 *)
        | _, _ => false
        end
    end.
End Grounded.

(** A propositional clause with its derivation: the clause it is an instance of, and the places in the list of
    propositional clauses of the units that removed literals from it (wr_build_propinst_history). *)
Record pclause := PClause { plits : list Z; parent : list literal; cutters : list nat }.

(** An entry of the store of atoms: slot, atom, constant, number. *)
Record entry := Entry { e_slot : Z; e_atom : term; e_const : cst; e_var : Z }.

Record pst := PSt {
  counter : Z;                 (* g->prop_counter *)
  entries : list entry;        (* g->prop_hash_atoms *)
  varvals : Z -> Z;            (* g->prop_varvals: 1, -1, or 0 if not known *)
  unit_of : Z -> nat;          (* g->prop_varval_clauses, as a place in [pclauses] *)
  pclauses : list pclause }.   (* g->prop_clauses *)

(** glb.c 277, 650-655 *)
Definition pinit : pst := PSt 2 nil (fun _ => 0) (fun _ => O) nil.

Section Instances.
  Variable dhash : dblv -> Z.
  Variable ltext : Z -> list Z.
  Variable cap : Z.
  Variable gconst : cst.

  (** wr_term_hash, hash.c 327-355, with variables hashed as the constant (423-424) *)
  Fixpoint prop_hash (t : term) : Z :=
    match t with
    | TVar _ => basehash dhash ltext gconst
    | TCst c => basehash dhash ltext c
    | TRec fs =>
        let h := Z.rem (fold_left (fun h f => mix64 (prop_hash f) h) fs 0) 999998 in
        if h <? 0 then 0 - h else h
    end.
  (** prop.c 359-363, 427-431, with an array of length 1000000 *)
  Definition prop_slot (hash : Z) : Z :=
    let hash := if hash <? 0 then 0 - hash else hash in
    let hash := if 1000000 <=? hash + 1 then Z.rem hash 999999 else hash in
    hash + 1.

  (** wr_find_offset_prop_termhash 414-462 *)
  Fixpoint find_entry (es : list entry) (slot : Z) (atom : term) : option Z :=
    match es with
    | nil => None
    | e :: r =>
        if (e_slot e =? slot) && equal_grounded gconst (e_const e) atom (e_atom e) then Some (e_var e)
        else find_entry r slot atom
    end.

  (** wr_make_get_propvar 235-276.  [None]: a freed vector is used.  Storing the constant at 2p+1 may move the
      vector of groundings (269), after which the atom is stored at 2p in the old one (271).  Storing the value
      may move varvals (264), after which the caller reads its old place (103, 125). *)
  Definition make_get_propvar (st : pst) (atom : term) : option (pst * Z) :=
    let slot := prop_slot (prop_hash atom) in
    match find_entry (entries st) slot atom with
    | Some p => Some (st, p)
    | None =>
        let p := counter st in
        if 2 * cap <? 2 * p + 1 then None
        else if cap <? p then None
        else Some (PSt (p + 1) (entries st ++ [Entry slot atom gconst p])
                     (fun q => if q =? p then 0 else varvals st q) (unit_of st) (pclauses st), p)
    end.

  (** The scan of the literals so far, prop.c 150-164. *)
  Inductive scan := Fresh | Repeated | Opposite.
  Fixpoint scan_store (store : list Z) (lit : Z) : scan :=
    match store with
    | nil => Fresh
    | s :: r => if s =? lit then Repeated else if s =? 0 - lit then Opposite else scan_store r lit
    end.

  (** The loop over the literals, prop.c 107-174.  cut_clvec has 100 places (glb.h 81): when [n] literals have been
      removed, the unit that removed the last one is noted if 100 > n+1 (142-145). *)
  Inductive lres := LTrue (st : pst) | LDone (st : pst) (store : list Z) (cuts : list nat) | LFreed.
  Fixpoint lits (cl : list literal) (st : pst) (store : list Z) (n : nat) (cuts : list nat) : lres :=
    match cl with
    | nil => LDone st store cuts
    | (neg, atom) :: r =>
        match make_get_propvar st atom with
        | None => LFreed
        | Some (st', p) =>
            let value := varvals st' p in
            let sign := if neg then 0 - 1 else 1 in
            let lit := if neg then 0 - p else p in
            if negb (value =? 0) then
              if value =? sign then LTrue st'                                    (* 132-136 *)
              else lits r st' store (S n) (if Nat.ltb (S n + 1) 100 then cuts ++ [unit_of st' p] else cuts)
            else
              match scan_store store lit with
              | Repeated => lits r st' store n cuts
              | Opposite => LTrue st'                                            (* 158-162 *)
              | Fresh => lits r st' (store ++ [lit]) n cuts
              end
        end
    end.

  (** wr_cl_create_propinst 62-233 *)
  Inductive pres := Added (st : pst) | Skipped (st : pst) | Proof_ (st : pst) (cuts : list nat) | Freed.
  Definition create_propinst (st : pst) (cl : list literal) : pres :=
    match lits cl st nil 0 nil with
    | LFreed => Freed
    | LTrue st' => Skipped st'
    | LDone st' nil cuts => Proof_ st' cuts                                      (* 178-187 *)
    | LDone st' store cuts =>
        let place := length (pclauses st') in
        let cls := pclauses st' ++ [PClause store cl cuts] in
        Added match store with
        | [v] =>                                                                 (* 214-228 *)
            let q := if v <? 0 then 0 - v else v in
            let x := if v <? 0 then 0 - 1 else 1 in
            PSt (counter st') (entries st') (fun z => if z =? q then x else varvals st' z)
              (fun z => if z =? q then place else unit_of st' z) cls
        | _ => PSt (counter st') (entries st') (varvals st') (unit_of st') cls
        end
    end.

  (** All clauses of a run, up to a proof. *)
  Inductive outcome := Going (st : pst) | Refuted (st : pst) (cl : list literal) (cuts : list nat) | Broken.
  Fixpoint run (st : pst) (cls : list (list literal)) : outcome :=
    match cls with
    | nil => Going st
    | c :: r =>
        match create_propinst st c with
        | Added st' | Skipped st' => run st' r
        | Proof_ st' cuts => Refuted st' c cuts
        | Freed => Broken
        end
    end.
End Instances.
