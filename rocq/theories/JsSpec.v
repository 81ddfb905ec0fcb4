(** The formulas of Doc/json_ld_logic.md 84-165 and 207-250, what they mean, and how they are written
    in JSON; nothing here looks at how the reader works. *)
From Coq Require Import ZArith List String Ascii Bool.
From Verif Require Import ClausModel ClausSpec JsModel.
Import ListNotations.
Open Scope string_scope.
Open Scope list_scope.

Inductive fterm := TV (x : string) | TC (c : string) | TN (z : Z) | TF (f : string) (ts : list fterm).
Inductive bop := BImp | BRev | BIff | BXor | BNor | BNand.
Inductive form :=
| FTruth (b : bool)
| FAtom (p : string) (ts : list fterm)
| FNeg (p : string) (ts : list fterm)          (* the negated atom ["-p", ...] *)
| FEq (a b : fterm)
| FNeq (a b : fterm)
| FNot (f : form)
| FBin (o : bop) (f g : form)
| FAnd (l : list form)
| FOr (l : list form)
| FIf (cs qs : list form)                      (* all conditions imply one of the consequences *)
| FForall (vs : list string) (f : form)
| FExists (vs : list string) (f : form).

(** An interpretation of names and numbers *)
Record world (D : Type) := mkW {
  wc : string -> D;                            (* constants *)
  wn : Z -> D;                                 (* numbers *)
  wf : string -> list D -> D;                  (* functions *)
  wp : string -> list D -> Prop                (* predicates; "=" among them *)
}.
Arguments wc {D}. Arguments wn {D}. Arguments wf {D}. Arguments wp {D}. Arguments mkW {D}.

Fixpoint tval {D} (w : world D) (v : string -> D) (t : fterm) : D :=
  match t with
  | TV x => v x
  | TC c => wc w c
  | TN z => wn w z
  | TF f ts => wf w f (map (tval w v) ts)
  end.
Definition differ_on {D} (vs : list string) (v v' : string -> D) : Prop := forall x, ~ In x vs -> v' x = v x.
Definition bop_truth (o : bop) (A B : Prop) : Prop :=
  match o with
  | BImp => A -> B | BRev => B -> A | BIff => A <-> B
  | BXor => ~ (A <-> B) | BNor => ~ (A \/ B) | BNand => ~ (A /\ B)
  end.
Fixpoint truth {D} (w : world D) (v : string -> D) (f : form) : Prop :=
  match f with
  | FTruth b => b = true
  | FAtom p ts => wp w p (map (tval w v) ts)
  | FNeg p ts => ~ wp w p (map (tval w v) ts)
  | FEq a b => wp w "=" [tval w v a; tval w v b]
  | FNeq a b => ~ wp w "=" [tval w v a; tval w v b]
  | FNot g => ~ truth w v g
  | FBin o g h => bop_truth o (truth w v g) (truth w v h)
  | FAnd l => fold_right and True (map (truth w v) l)
  | FOr l => fold_right or False (map (truth w v) l)
  | FIf cs qs => fold_right and True (map (truth w v) cs) -> fold_right or False (map (truth w v) qs)
  | FForall vs g => forall v', differ_on vs v v' -> truth w v' g
  | FExists vs g => exists v', differ_on vs v v' /\ truth w v' g
  end.
(** Free variables are universally quantified *)
Definition true_in {D} (w : world D) (f : form) : Prop := forall v, truth w v f.

Fixpoint tvars (t : fterm) : list string :=
  match t with TV x => [x] | TC _ | TN _ => [] | TF _ ts => flat_map tvars ts end.
Definition without (vs l : list string) : list string := filter (fun x => negb (existsb (String.eqb x) vs)) l.
Fixpoint fvars (f : form) : list string :=
  match f with
  | FTruth _ => []
  | FAtom _ ts | FNeg _ ts => flat_map tvars ts
  | FEq a b | FNeq a b => tvars a ++ tvars b
  | FNot g => fvars g
  | FBin _ g h => fvars g ++ fvars h
  | FAnd l | FOr l => flat_map fvars l
  | FIf cs qs => flat_map fvars cs ++ flat_map fvars qs
  | FForall vs g | FExists vs g => without vs (fvars g)
  end.

(** How terms and formulas are written *)
Inductive spellsT : fterm -> json -> Prop :=
| ST_var x : spellsT (TV x) (JStr x)
| ST_cst c : spellsT (TC c) (JStr c)
| ST_num z : spellsT (TN z) (JInt z)
| ST_app f ts js : Forall2 spellsT ts js -> spellsT (TF f ts) (JArr (JStr f :: js))
| ST_op f a b ja jb : In f ["+"; "-"; "*"; "/"] -> spellsT a ja -> spellsT b jb ->
    spellsT (TF f [a; b]) (JArr [ja; JStr f; jb]).
Definition op_name (o : bop) : string :=
  match o with BImp => "=>" | BRev => "<=" | BIff => "<=>" | BXor => "<~>" | BNor => "~|" | BNand => "~&" end.
Fixpoint infix (op : string) (js : list json) : list json :=
  match js with
  | [] => []
  | [j] => [j]
  | j :: r => j :: JStr op :: infix op r
  end.
Definition is_array (j : json) : Prop := match j with JArr _ => True | _ => False end.
Inductive spells : form -> json -> Prop :=
| S_truth b : spells (FTruth b) (JBool b)
| S_atom p ts js : Forall2 spellsT ts js -> spells (FAtom p ts) (JArr (JStr p :: js))
| S_neg p ts js : Forall2 spellsT ts js -> spells (FNeg p ts) (JArr (JStr (String "-" p) :: js))
| S_eq a b ja jb : spellsT a ja -> spellsT b jb -> spells (FEq a b) (JArr [ja; JStr "="; jb])
| S_neq a b ja jb op : In op ["!="; "-="; "~="] -> spellsT a ja -> spellsT b jb ->
    spells (FNeq a b) (JArr [ja; JStr op; jb])
| S_not op f j : In op ["not"; "~"; "-"] -> spells f j -> spells (FNot f) (JArr [JStr op; j])
| S_bin o f g jf jg : spells f jf -> spells g jg -> spells (FBin o f g) (JArr [jf; JStr (op_name o); jg])
| S_and op fs js : In op ["&"; "and"] -> 2 <= List.length fs -> Forall2 spells fs js ->
    spells (FAnd fs) (JArr (infix op js))
| S_or op fs js : In op ["|"; "or"] -> 2 <= List.length fs -> Forall2 spells fs js ->
    spells (FOr fs) (JArr (infix op js))
| S_clause fs js : fs <> [] -> Forall2 spells fs js -> Forall is_array js -> spells (FOr fs) (JArr js)
| S_if cs qs jcs jqs : cs <> [] -> qs <> [] -> Forall2 spells cs jcs -> Forall2 spells qs jqs ->
    spells (FIf cs qs) (JArr (JStr "if" :: jcs ++ JStr "then" :: jqs))
| S_forall vs f j : spells f j -> spells (FForall vs f) (JArr [JStr "forall"; JArr (map JStr vs); j])
| S_exists vs f j : spells f j -> spells (FExists vs f) (JArr [JStr "exists"; JArr (map JStr vs); j]).

(** Which names may be used.  The first two lines of the list are the operators of the documentation;
    the next are words that the documentation does not reserve. *)
Definition reserved : list string :=
  ["not"; "~"; "-"; "and"; "or"; "&"; "|"; "if"; "forall"; "exists"; "<=>"; "=>"; "<="; "<~>"; "~|"; "~&";
   "="; "!="; "-="; "~="; "+"; "*"; "/"; "@type";
   "@"; "all"; "imp"; "eqv"].
(** Names with a meaning of their own inside the prover *)
Definition special : list string := ["$$lst"; "$true"; "$false"].
Definition name_ok (s : string) : Prop := s <> "" /\ String.prefix "?:" s = false /\ ~ In s reserved /\ ~ In s special.
(** A variable: "?:" and something more, or, inside a quantifier that binds it, a capitalized name *)
Definition var_name (s : string) : Prop := qvar s = true \/ cap s = true.
(** Names stored the same way whether they come from an atom or from a negated atom: no capital at
    the beginning, no 0 at the beginning, only letters, digits, $ and _ (and @) *)
Definition plain (s : string) : Prop := cap s = false /\ should_quote s = false.
Definition int32 (z : Z) : Prop := (-2147483648 <= z < 2147483648)%Z.

(** [bd]: the variables bound around the term or formula *)
Fixpoint legalT (bd : list string) (t : fterm) : Prop :=
  match t with
  | TV x => qvar x = true \/ cap x = true /\ In x bd
  | TC c => name_ok c /\ ~ In c bd
  | TN z => int32 z
  | TF f ts => (name_ok f \/ In f ["+"; "-"; "*"; "/"]) /\ ~ In f bd /\ fold_right and True (map (legalT bd) ts)
  end.
Fixpoint legal (bd : list string) (f : form) : Prop :=
  match f with
  | FTruth _ => True
  | FAtom p ts => name_ok p /\ neg_char p = false /\ ~ In p bd /\ fold_right and True (map (legalT bd) ts)
  | FNeg p ts => name_ok p /\ plain p /\ ~ In p bd /\ fold_right and True (map (legalT bd) ts)
  | FEq a b | FNeq a b => legalT bd a /\ legalT bd b
  | FNot g => legal bd g
  | FBin _ g h => legal bd g /\ legal bd h
  | FAnd l | FOr l => fold_right and True (map (legal bd) l)
  | FIf cs qs => fold_right and True (map (legal bd) cs) /\ fold_right and True (map (legal bd) qs)
  | FForall vs g | FExists vs g => vs <> [] /\ Forall var_name vs /\ legal (vs ++ bd) g
  end.

(** Interpretations of the stored symbols, and the interpretation of names that each of them gives *)
Record stint (D : Type) := mkJ {
  sc : key -> D;
  sf : key -> list D -> D;
  sp : key -> list D -> Prop
}.
Arguments sc {D}. Arguments sf {D}. Arguments sp {D}. Arguments mkJ {D}.
(** The symbol of a name: +, -, *, / and $sum, $difference, $product, $quotient are two names of the
    same functions (Doc/json_ld_logic.md 236-242); a name with capitals or special characters gets the prefix "c", a name
    beginning with "#:" the prefix "#" (Doc/json_ld_logic.md says nothing about it; the prefixes keep
    the names apart) *)
Definition synonyms : list (string * string) :=
  [("$sum", "+"); ("$difference", "-"); ("$product", "*"); ("$quotient", "/")].
Definition name_key (head : bool) (s : string) : key :=
  match find (fun p => head && String.eqb (fst p) s) synonyms with
  | Some (_, op) => KName None op
  | None =>
  if String.prefix "#:" s then KName (Some "#") (stail (stail s))
  else if head && mems s ["="; "-"; "+"; "*"; "/"] then KName None s
  else if cap s || should_quote s then KName (Some "c") s else KName None s
  end.
(** An interpretation where synonyms mean the same *)
Definition respects {D} (w : world D) : Prop :=
  Forall (fun p => wf w (fst p) = wf w (snd p) /\ wp w (fst p) = wp w (snd p)) synonyms.
Definition world_of {D} (J : stint D) : world D :=
  mkW (fun s => sc J (name_key false s)) (fun z => sc J (KInt z))
      (fun s => sf J (name_key true s)) (fun s => sp J (name_key true s)).
(** The same interpretation, for the lists that the reader makes; [sem] of ClausSpec gives their meaning *)
Definition int_of {D} (J : stint D) : interp D :=
  mkI (fun a => sc J (stored false a)) (fun a => sf J (stored true a)) (fun a => sp J (stored true a)).
