(** Places in terms, equations that may be used, and the clauses that were entered. *)
From Coq Require Import List ZArith Bool.
From Verif Require Import Terms UnifyModel MatchModel MetaModel BuildModel DeriveModel HashModel HashSpec OrdSpec OrdModel PmModel.
Import ListNotations.
Open Scope Z_scope.

(** A place is given by argument numbers, from the outside inwards: the subterm there. *)
Fixpoint sub (q : list nat) (t : term) : option term :=
  match q with
  | [] => Some t
  | k :: q => match t with
              | TRec fs => match k, nth_error fs k with
                           | S _, Some x => sub q x
                           | _, _ => None
                           end
              | _ => None
              end
  end.
(** The number of places in a term (variables included, function symbols not). *)
Fixpoint size (t : term) : Z :=
  match t with
  | TRec (_ :: args) => 1 + fold_right (fun x a => size x + a) 0 args
  | _ => 1
  end.
Definition sizes (ts : list term) : Z := fold_right (fun x a => size x + a) 0 ts.
(** The number of a place: how many places come before it, when a term comes before its
    arguments and these go from left to right. *)
Fixpoint number (q : list nat) (t : term) : Z :=
  match q, t with
  | k :: q, TRec fs => 1 + sizes (firstn (k - 1) (tl fs)) + number q (nth k fs (TRec []))
  | _, _ => 0
  end.

Definition not_var (t : term) : Prop := match t with TVar _ => False | _ => True end.

(** The places of an atom where a rewriting may happen: inside the atom, not a variable, numbered
    up to 60000, and not deeper than two if [shallow]. *)
Record place (shallow : bool) (atom : term) (q : list nat) (u : term) : Prop := {
  pl_sub : sub q atom = Some u;
  pl_inside : q <> [];
  pl_nonvar : not_var u;
  pl_depth : shallow = true -> (length q <= 2)%nat;
  pl_number : number q atom <= 60000
}.

(** Literal [l] is a positive equation whose left (right) side is [x] and whose other side is [y]. *)
Definition equation (eqc : cst) (l : clit) (left : bool) (x y : term) : Prop :=
  meta_is_neg (lmeta l) = false /\
  exists rest, latom l = TRec (TCst eqc :: (if left then x else y) :: (if left then y else x) :: rest).
(** [x] is larger than [y] in the ordering of terms. *)
Definition larger (word : cst -> Z) (x y : term) : Prop :=
  exists n, order_eqterms word n (fun _ => None) x y = Some 1.
(** An equation may be used to replace [x] by [y]. *)
Definition usable (word : cst -> Z) (ordered_only : bool) (x y : term) : Prop :=
  not_var x /\ ~ larger word y x /\ (ordered_only = true -> larger word x y).

Definition unifiable (x y : term) : Prop := exists s, app s x = app s y.

(** Literal number [i] of a clause. *)
Definition literal (c : scl) (i : Z) (l : clit) : Prop := 0 <= i /\ nth_error (cl_lits c) (Z.to_nat i) = Some l.
(** The strategy uses the clause for paramodulation at all. *)
Definition takes_part (o : popts) (c : scl) : Prop :=
  o_hyper o = true -> o_relaxed o = false ->
  match c with SFact _ _ => True | SRule l => forall x, In x l -> meta_is_neg (lmeta x) = false end.

(** No limit of the strategy excludes the pair of the given clause [g] and the stored clause [c]. *)
Definition not_excluded (o : popts) (nested backsubsumed : Z -> bool) (answer_lit : term -> bool) (cls : Z -> scl) (g : scl) (c : Z) : Prop :=
  (o_nonested o = true -> nested c = false) /\
  (o_backsubsume o = true -> backsubsumed c = false) /\
  (o_arglen o <> 0 -> match cls c with SFact _ _ => True | r => nonans answer_lit r <= o_arglen o end) /\
  (o_shortlen o <> 0 -> nonans answer_lit g <= o_shortlen o \/ nonans answer_lit (cls c) <= o_shortlen o).

(** The word in every field of the entered clauses denotes what is there. *)
Definition fields_read (den : Z -> term) (cls : Z -> scl) (fld : Z -> Z -> list nat -> Z) (h : list (Z * (Z -> bool))) : Prop :=
  forall c rs i l q t, In (c, rs) h -> literal (cls c) i l -> sub q (latom l) = Some t -> den (fld c i q) = t.

(** The indexes (arrays of 1000000 lists) after entering clauses, newest first, each with the
    literals selected in it.  malloc returns addresses not in use. *)
Inductive entered (dhash : dblv -> Z) (ltext : Z -> list Z) (word : cst -> Z) (cls : Z -> scl) (fld : Z -> Z -> list nat -> Z)
                  (eqc : cst) (o : popts) : list Z -> list (Z * (Z -> bool)) -> pidx -> Prop :=
| e_new nd nd' : entered dhash ltext word cls fld eqc o [] []
    {| ix_para := new_hlist 1000000 nd; ix_eq := new_hlist 1000000 nd' |}
| e_store used h x n c rs ap ae x' :
    entered dhash ltext word cls fld eqc o used h x ->
    NoDup (flat ap ++ flat ae) -> (forall a, In a (flat ap ++ flat ae) -> a <> 0 /\ ~ In a used) ->
    store dhash ltext word cls fld eqc o n x c rs ap ae = Ok x' ->
    entered dhash ltext word cls fld eqc o (flat ap ++ flat ae ++ used) ((c, rs) :: h) x'.

(** Clause [c], with the literals [rs] selected, was entered under the options [oo]: either in the
    indexes of this run, or in those of the shared knowledge base. *)
Definition stored (o : popts) (h : list (Z * (Z -> bool))) (ok : popts) (hk : list (Z * (Z -> bool))) (oo : popts) (c : Z) (rs : Z -> bool) : Prop :=
  (oo = o /\ In (c, rs) h) \/ (oo = ok /\ In (c, rs) hk).
(** The indexes of the shared knowledge base, if there is one. *)
Definition kb_entered (dhash : dblv -> Z) (ltext : Z -> list Z) (word : cst -> Z) (cls : Z -> scl) (fld : Z -> Z -> list nat -> Z)
                      (eqc : cst) (ok : popts) (hk : list (Z * (Z -> bool))) (kb : option pidx) : Prop :=
  match kb with
  | None => hk = []
  | Some k => exists used, entered dhash ltext word cls fld eqc ok used hk k
  end.
(** Most general among the unifiers of [x] and [y]. *)
Definition most_general (s : subst) (x y : term) : Prop :=
  app s x = app s y /\ forall t, app t x = app t y -> forall u, app t (app s u) = app t u.

(** The hash of the symbol of a term is not the smallest int. *)
Definition good_symbol (dhash : dblv -> Z) (ltext : Z -> list Z) (t : term) : Prop :=
  match t with
  | TCst c | TRec (TCst c :: _) => value_hash dhash ltext c <> - 2 ^ 31
  | _ => True
  end.
(** So for all subterms of a clause. *)
Definition good_symbols (dhash : dblv -> Z) (ltext : Z -> list Z) (c : scl) : Prop :=
  forall i l q t, literal c i l -> sub q (latom l) = Some t -> good_symbol dhash ltext t.
(** Atoms start with their symbol, and so do all terms in them. *)
Definition well_formed (c : scl) : Prop := forall i l, literal c i l -> is_rec (latom l) = true /\ headed (latom l).

(** The copy [c] of the given clause is about to be entered: the indexes so far, the words of all
    entered clauses, and the addresses malloc will return. *)
Record ready (dhash : dblv -> Z) (ltext : Z -> list Z) (word : cst -> Z) (den : Z -> term) (cls : Z -> scl)
             (fld : Z -> Z -> list nat -> Z) (eqc : cst) (o : popts) (h : list (Z * (Z -> bool))) (x : pidx)
             (ok : popts) (hk : list (Z * (Z -> bool))) (kb : option pidx)
             (c : Z) (rs : Z -> bool) (ap ae : list (Z * Z)) : Prop := {
  r_own : exists used, entered dhash ltext word cls fld eqc o used h x /\ NoDup (flat ap ++ flat ae) /\
            forall a, In a (flat ap ++ flat ae) -> a <> 0 /\ ~ In a used;
  r_kb : kb_entered dhash ltext word cls fld eqc ok hk kb;
  r_read : fields_read den cls fld (((c, rs) :: h) ++ hk);
  r_formed : forall c' rs', In (c', rs') (((c, rs) :: h) ++ hk) -> well_formed (cls c')
}.
(** With the unifier, the equation is ordered against the replacement of [a] by [b]. *)
Definition against (word : cst -> Z) (a b t : term) : Prop :=
  exists s, most_general s a t /\ larger word (app s b) (app s a).
