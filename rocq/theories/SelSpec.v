(** Specification vocabulary for the choice of literals. *)
From Coq Require Import List ZArith Bool.
From Verif Require Import Terms OrdSpec SelModel.
Import ListNotations.
Open Scope Z_scope.

(** A literal that is neither an answer nor a comparison of numbers. *)
Definition ordinary (l : lit) : Prop := ans l = false /\ spc l = false.
(** Literal number [i] of the clause is [l], and [m] lets it be resolved upon. *)
Definition selected (cl : list lit) (m : list bool) (i : nat) (l : lit) : Prop :=
  nth_error cl i = Some l /\ nth_error m i = Some true.
(** Every literal that is not an answer has an ordinary literal of its sign in the clause. *)
Definition accompanied (cl : list lit) : Prop :=
  forall l, In l cl -> ans l = false -> exists k, In k cl /\ ordinary k /\ neg k = neg l.

(** * The ordering of atoms *)
(** How many leaves, how many times a variable *)
Fixpoint leaves (t : term) : nat :=
  match t with
  | TRec fs => list_sum (map leaves fs)
  | _ => 1%nat
  end.
Definition occurrences (v : Z) (t : term) : nat := count_occ Z.eq_dec (tvars t) v.
Section Big.
  Variable word : cst -> Z.
  Variable is_uri : cst -> bool.
  Variable uid : cst -> Z.
  (** Of two names the one with the smaller id is below, of other constants the one with the larger word. *)
  Definition below (c d : cst) : Prop :=
    if is_uri c && is_uri d then uid c < uid d else word d < word c.
  (** The first difference from the left, with no variable at it, makes [x] the bigger one. *)
  Inductive lex_bigger : term -> term -> Prop :=
  | lb_const c d : below d c -> lex_bigger (TCst c) (TCst d)
  | lb_compound fs d : lex_bigger (TRec fs) (TCst d)
  | lb_longer fs gs : (length gs < length fs)%nat -> lex_bigger (TRec fs) (TRec gs)
  | lb_field p f g fs gs : length fs = length gs -> lex_bigger f g ->
      lex_bigger (TRec (p ++ f :: fs)) (TRec (p ++ g :: gs)).
  (** [x] is bigger than [y] *)
  Definition bigger (x y : term) : Prop :=
    (forall v, (occurrences v y <= occurrences v x)%nat) /\
    ((leaves y < leaves x)%nat \/ (leaves y = leaves x /\ lex_bigger x y)).
  (** The constants can be ranked in a way that agrees with [below]; different constants have
      different words. *)
  Definition orderly (cs : list cst) : Prop :=
    exists rank : cst -> Z, forall c d, In c cs -> In d cs -> c <> d ->
      rank c <> rank d /\ word c <> word d /\ (below c d <-> rank c < rank d).
  (** All names, with different ids, or no names. *)
  Definition same_kind (cs : list cst) : Prop :=
    (forall c d, In c cs -> In d cs -> word c = word d -> c = d) /\
    ((forall c, In c cs -> is_uri c = false) \/
     (forall c, In c cs -> is_uri c = true) /\ (forall c d, In c cs -> In d cs -> uid c = uid d -> c = d)).
End Big.
Definition csts (cl : list lit) : list cst := flat_map (fun l => tcsts (atom l)) cl.
