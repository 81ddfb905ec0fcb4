(** What a printed proof should be, in terms of how the clauses were derived. *)
From Coq Require Import List ZArith Bool Relations.
From Verif Require Import Word64 EncModel PrfModel.
Import ListNotations.
Open Scope Z_scope.

(** The clauses listed in a vector: those before the first empty entry. *)
Fixpoint before_null (l : list Z) : list Z :=
  match l with [] => [] | x :: l => if Z.eq_dec x 0 then [] else x :: before_null l end.
Definition listed (v : option (list Z)) : list Z :=
  match v with Some l => before_null l | None => [] end.

(** The clauses a step was made from, in order. *)
Definition parents (o : op) : list Z :=
  match o with
  | OInput _ _ | OExtprop => []
  | OResolve c1 c2 _ _ v | OInstgen c1 c2 _ _ v => c1 :: c2 :: listed v
  | OPropagate c1 c2 _ _ => [c1; c2]
  | OFactor c _ _ v | OPropinst c _ v | OArith c _ v => c :: listed v
  | OPara _ e _ _ i _ _ v => e :: i :: listed v
  | OSimplify c v rws => c :: listed v ++ rws
  end.
(** The clauses the rule itself was applied to, without those only used to cut or rewrite. *)
Definition main_parents (o : op) : list Z :=
  match o with
  | OInput _ _ | OExtprop => []
  | OResolve c1 c2 _ _ _ | OInstgen c1 c2 _ _ _ | OPropagate c1 c2 _ _ => [c1; c2]
  | OFactor c _ _ _ | OPropinst c _ _ | OArith c _ _ | OSimplify c _ _ => [c]
  | OPara _ e _ _ i _ _ _ => [e; i]
  end.
(** The name of the rule in a proof. *)
Definition rule_name (o : op) : rule :=
  match o with
  | OInput _ _ => RIn | OExtprop => RExtprop
  | OResolve _ _ _ _ _ => RMp | OInstgen _ _ _ _ _ => RInstgen | OPropagate _ _ _ _ => RFmp
  | OFactor _ _ p2 _ => if Z_lt_dec p2 0 then RRefl else RMerge
  | OPropinst _ _ _ => RInst | OArith _ _ _ => RArith
  | OPara _ _ _ _ _ _ _ _ => RPara | OSimplify _ _ _ => RSimp
  end.

(** A derivation: record, clause and step, latest first.  Each step uses earlier clauses, each
    record and clause is new. *)
Definition dlist := list (Z * Z * op).
Definition clause_of (e : Z * Z * op) : Z := snd (fst e).
Definition made (d : dlist) (c : Z) (o : op) : Prop := exists h, In (h, c, o) d.
Definition sizes (o : op) : Prop :=
  match o with
  | OInput _ prio => 0 <= prio < 256
  | OResolve _ _ p1 p2 _ | OInstgen _ _ p1 p2 _ | OPropagate _ _ p1 p2 => 0 <= p1 /\ 0 <= p2
  | OFactor _ p1 _ _ => 0 <= p1
  | OPara _ _ ep _ _ ip tp _ => 0 <= ep /\ 0 <= ip < 2 ^ 15 /\ 0 <= tp < 2 ^ 16
  | OArith _ s v => Forall (fun vv => 0 <= fst vv < 2 ^ 31) s /\ Z.of_nat (length (listed v)) < 2 ^ 31
  | OPropinst _ _ _ | OSimplify _ _ _ | OExtprop => True
  end.
Definition usable (d : dlist) (o : op) : Prop :=
  sizes o /\ forall p, In p (parents o) -> exists o', made d p o' /\ o' <> OExtprop.

Inductive derivation (g : env) : dlist -> mem -> Prop :=
| D_none : derivation g [] empty
| D_step d m h c clid order o m' :
    derivation g d m -> usable d o ->
    h <> 0 -> c <> 0 -> ~ In h (map (fun e => fst (fst e)) d) -> ~ In c (map clause_of d) ->
    derive g m h c clid order o = Some m' ->
    derivation g ((h, c, o) :: d) m'.

Definition parent (d : dlist) (p c : Z) : Prop := exists o, made d c o /\ In p (parents o).
Definition ancestor (d : dlist) : Z -> Z -> Prop := clos_trans Z (parent d).

(** The word after an input record is not mistaken for the tag of an instantiation. *)
Definition calm (m : mem) (stray : Z -> Z -> Z) (fullint : Z -> Z) (d : dlist) : Prop :=
  forall h c name prio, In (h, c, OInput name prio) d ->
    is_int (stray h TAG_POS) = true -> get_tag (int_of fullint (stray h TAG_POS)) <> T_ARITHINST.

(** The numbers a line cites. *)
Definition cited (l : line) : list Z :=
  flat_map (fun i => match i with IRef n _ _ => [n] | _ => [] end) (l_items l).
(** Line number [n] is that of clause [c]. *)
Definition stands_for (lines : list line) (n c : Z) : Prop :=
  1 <= n /\ exists l, nth_error lines (Z.to_nat (n - 1)) = Some l /\ l_num l = n /\ l_clause l = c.
(** The line of an input clause has the name and role it came with. *)
Definition labelled (o : op) (l : line) : Prop :=
  match o with OInput name r => l_name l = name /\ l_role l = r | _ => True end.
(** A line names the rule of the step and cites earlier lines of exactly its parents. *)
Definition explains (lines : list line) (l : line) (o : op) : Prop :=
  l_rule l = rule_name o /\ labelled o l /\
  Forall2 (fun p n => n < l_num l /\ stands_for lines n p) (parents o) (cited l).

(** A complete ordered proof of the step [o] ending in clause [ans]. *)
Definition is_proof (d : dlist) (c : Z) (o : op) (ans : Z) (lines : list line) : Prop :=
  exists body last,
    lines = body ++ [last] /\
    map l_num lines = map Z.of_nat (seq 1 (length lines)) /\
    NoDup (map l_clause body) /\
    (forall x, In x (map l_clause body) <-> ancestor d x c) /\
    (forall l, In l body -> exists o', made d (l_clause l) o' /\ explains lines l o') /\
    explains lines last o /\
    (o <> OExtprop -> l_clause last = ans).

(** Something holds of every line, given the clause and the step it is for. *)
Definition each_line (d : dlist) (c : Z) (o : op) (lines : list line) (P : Z -> op -> line -> Prop) : Prop :=
  forall body last, lines = body ++ [last] ->
    (forall l o', In l body -> made d (l_clause l) o' -> P (l_clause l) o' l) /\ P c o last.

(** The position of a literal; position 0 may be left out. *)
Definition at_pos (p : Z) (ps : list Z) : Prop := ps = [p] \/ (p = 0 /\ ps = []).
(** The parts of a line besides the numbers. *)
Definition details (o : op) (items : list item) : Prop :=
  match o with
  | OInput _ _ | OExtprop => items = []
  | OResolve _ _ p1 p2 _ | OInstgen _ _ p1 p2 _ | OPropagate _ _ p1 p2 =>
      exists n1 ps1 n2 ps2 rest, items = IRef n1 ps1 None :: IRef n2 ps2 None :: map (fun n => IRef n [] None) rest
        /\ at_pos p1 ps1 /\ at_pos p2 ps2
  | OFactor _ p1 p2 _ =>
      exists n rest, items = IRef n (if Z_lt_dec p2 0 then [p1] else [p1; p2]) None
                             :: map (fun n => IRef n [] None) rest
  | OPropinst _ t _ =>
      exists n rest, items = IRef n [] None :: ITerm t :: map (fun n => IRef n [] None) rest
  | OPara _ _ ep el _ ip tp _ =>
      exists n1 ps1 s n2 rest,
        items = IRef n1 ps1 s :: IRef n2 [ip; tp] None :: map (fun n => IRef n [] None) rest
        /\ at_pos ep ps1 /\ (s = Some el \/ (s = None /\ ps1 = [] /\ el = true))
  | OSimplify _ _ _ => exists rest, items = map (fun n => IRef n [] None) rest
  | OArith _ s _ =>
      exists n rest, items = IRef n [] None :: map (fun vv => ISubst (fst vv) (snd vv)) s
                             ++ map (fun n => IRef n [] None) rest
  end.
(** Literal positions that are printed as they are. *)
Definition low (o : op) : Prop :=
  match o with
  | OResolve _ _ p1 p2 _ | OInstgen _ _ p1 p2 _ | OPropagate _ _ p1 p2 | OFactor _ p1 p2 _ =>
      p1 < 16 /\ p2 < 16
  | OPara from _ ep _ _ ip _ _ => ep < 16 /\ ip < 16 /\ (from = true \/ ep = ip)
  | _ => True
  end.

(** Provenance: an input of role [r] is behind the clause, through the clauses [via] names. *)
Definition step_via (via : op -> list Z) (d : dlist) (p c : Z) : Prop :=
  exists o, made d c o /\ In p (via o).
Definition behind (via : op -> list Z) (d : dlist) (r c : Z) : Prop :=
  exists x name, made d x (OInput name r) /\ clos_refl_trans Z (step_via via d) x c.
Definition derived (o : op) : Prop :=
  match o with OInput _ _ | OExtprop => False | _ => True end.
(** The role that tells of goals and assumptions. *)
Definition right_role (r : Z) (goal assumption : Prop) : Prop :=
  (r = FROMGOALASSUMPTION /\ goal /\ assumption) \/
  (r = FROMGOAL /\ goal /\ ~ assumption) \/
  (r = FROMASSUMPTION /\ ~ goal /\ assumption) \/
  (r = FROMAXIOM /\ ~ goal /\ ~ assumption).
