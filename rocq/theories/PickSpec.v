(** Histories of the choice of given clauses, and what can be observed of them. *)
From Coq Require Import List ZArith Bool.
From Verif Require Import VecModel VecSpec QueueModel QueueSpec PickModel.
Import ListNotations.
Open Scope Z_scope.

(** The search keeps a clause with a weight (negative: not known), keeps a partial
    hyperresolvent, chooses a clause, or finds none left to choose. *)
Inductive event := Kept (c : cinfo) (w : Z) | KeptHyper (c : Z) | Chosen (src : source) (c : Z) | NoneLeft.

Inductive step (cfg : config) (s : sel) : event -> sel -> Prop :=
| st_kept c w ok1 ok2 junk1 junk2 s' : addr c <> 0 -> push_cl cfg ok1 ok2 junk1 junk2 s c w = Some s' ->
    step cfg s (Kept c w) s'
| st_hyper c ok junk s' : c <> 0 -> push_hyper ok junk s c = Some s' -> step cfg s (KeptHyper c) s'
| st_chosen src c s' : select s = Some (Some (src, c), s') -> step cfg s (Chosen src c) s'
| st_none s' : select s = Some (None, s') -> step cfg s NoneLeft s'.
Inductive steps (cfg : config) : sel -> list event -> sel -> Prop :=
| ss_nil s : steps cfg s [] s
| ss_cons s e s1 tr s2 : step cfg s e s1 -> steps cfg s1 tr s2 -> steps cfg s (e :: tr) s2.

Definition good (cfg : config) : Prop :=
  2 <= els cfg <= index_max /\ 2 <= hels cfg <= index_max /\ 0 <= maxp cfg.
(** A history from the start of a run. *)
Definition history (cfg : config) (tr : list event) (s : sel) : Prop :=
  good cfg /\ exists junk, steps cfg (create cfg junk) tr s.

(** How many clauses were kept.  (Vectors hold fewer than 2^30 words here; at 2^31 the code overflows.) *)
Definition is_kept (e : event) : bool := match e with Kept _ _ => true | KeptHyper _ => true | _ => false end.
Definition fits (tr : list event) : Prop := Z.of_nat (length (filter is_kept tr)) < index_max - 4.

(** The clauses chosen, in order *)
Definition chosen (tr : list event) : list Z := flat_map (fun e => match e with Chosen _ c => [c] | _ => [] end) tr.
(** The choices made when no partial hyperresolvent was waiting *)
Definition is_turn (e : event) : bool := match e with Chosen Hyper _ => false | Chosen _ _ => true | NoneLeft => true | _ => false end.
Definition turns (tr : list event) : Z := Z.of_nat (length (filter is_turn tr)).

(** The clauses kept in class [b], in order; those with a weight, with the weight cut off at the limit *)
Definition kept_in (cfg : config) (b : Z) (tr : list event) : list Z :=
  flat_map (fun e => match e with Kept c _ => if class (strat cfg) c =? b then [addr c] else [] | _ => [] end) tr.
Definition weighed_in (cfg : config) (b : Z) (tr : list event) : list entry :=
  flat_map (fun e => match e with
                     | Kept c w => if (class (strat cfg) c =? b) && (0 <=? w) then [(Z.min w (maxp cfg), addr c)] else []
                     | _ => [] end) tr.
(** All clauses kept, and all partial hyperresolvents kept *)
Definition kept_all (tr : list event) : list Z := flat_map (fun e => match e with Kept c _ => [addr c] | _ => [] end) tr.
Definition kept_hyper (tr : list event) : list Z := flat_map (fun e => match e with KeptHyper c => [c] | _ => [] end) tr.
(** The clauses chosen from class [b] by age and by weight, and the partial hyperresolvents chosen *)
Definition by_age (b : Z) (tr : list event) : list Z :=
  flat_map (fun e => match e with Chosen (Oldest k) c => if k =? b then [c] else [] | _ => [] end) tr.
Definition by_weight (b : Z) (tr : list event) : list Z :=
  flat_map (fun e => match e with Chosen (Light k) c => if k =? b then [c] else [] | _ => [] end) tr.
Definition by_hyper (tr : list event) : list Z := flat_map (fun e => match e with Chosen Hyper c => [c] | _ => [] end) tr.
Definition from_class (b : Z) (e : event) : Prop :=
  match e with Chosen (Light k) _ => k = b | Chosen (Oldest k) _ => k = b | _ => False end.
