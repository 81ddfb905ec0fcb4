(** What the documentation (Examples/README.md 1640-1730, Doc/json_ld_logic.md 193-219) says of
    lists, numbers and distinct symbols, without reference to the code. *)
From Coq Require Import ZArith Bool Ascii String List.
From Verif Require Import Terms Semantics BfModel.
Import ListNotations.
Open Scope string_scope.
Open Scope Z_scope.

(** Typed values: integers, reals, distinct symbols (strings), lists; [DOther]: literals of
    other types (dates, times, characters). *)
Inductive dval :=
  | DInt (z : Z) | DReal (d : dblv) | DStr (s : string) | DNil | DCons (x y : dval) | DOther (c : cst).

Section Spec.
  Variable sym : Z -> longv.

  Definition named (t : term) (p : option string) (n : string) : Prop :=
    exists o, t = TCst (CLong o) /\ sym o = LUri p n.

  (** The value written by a constant; ordinary constants (a, john) have none *)
  Definition cval (c : cst) : option dval :=
    match c with
    | CInt z => Some (DInt z)
    | CDbl d => Some (DReal d)
    | CImm w => if Z.eqb (w mod 8) 3 then Some (DInt (w / 8))
                else if Z.eqb (w mod 256) 95 then None else Some (DOther c)
    | CShort _ => Some (DOther c)
    | CLong o =>
        match sym o with
        | LUri (Some p) s => if String.eqb p "#" then Some (DStr s) else None
        | LUri None s => if String.eqb s "$nil" then Some DNil else None
        | LOther => Some (DOther c)
        end
    end.

  (** Terms that write numbers, distinct symbols and lists of such values *)
  Inductive writes : term -> dval -> Prop :=
  | w_cst c d : cval c = Some d -> (forall c', d <> DOther c') -> writes (TCst c) d
  | w_list h x y dx dy : named h None "$list" -> writes x dx -> writes y dy ->
      writes (TRec [h; x; y]) (DCons dx dy).

  (** The symbol table: one entry for each URI; the names of the list constructor and of the
      empty list are only used for these and for distinct symbols. *)
  Definition interned : Prop :=
    forall o o' p n, sym o = LUri p n -> sym o' = LUri p n -> o = o'.
  Definition reserved : Prop :=
    forall o p n, sym o = LUri p n -> n = "$list" \/ n = "$nil" -> p = None \/ p = Some "#".

  (** Terms as the parsers and encoders make them: immediate words have 64 bits, integers are
      boxed only when they do not fit in an immediate word (Db/dbdata.h 333-337), distinct
      symbols are not used as function symbols. *)
  Fixpoint well_made (t : term) : Prop :=
    match t with
    | TVar _ => True
    | TCst (CImm w) => - 2 ^ 63 <= w < 2 ^ 63
    | TCst (CInt z) => z < - 2 ^ 60 \/ 2 ^ 60 <= z
    | TCst _ => True
    | TRec fs =>
        match fs with h :: _ => forall s, ~ named h (Some "#") s | [] => True end /\
        (fix all (l : list term) : Prop := match l with [] => True | x :: l' => well_made x /\ all l' end) fs
    end.

  (** Interpretations that agree with the documentation: different values are different; a
      list is made by its first element and its rest, and is not a number, a distinct
      symbol or the empty list. *)
  Record standard (M : interp) : Prop := {
    st_differ : forall c c' d d', cval c = Some d -> cval c' = Some d' -> d <> d' -> icst M c <> icst M c';
    st_cons : forall h x y x' y', named (TCst h) None "$list" ->
      ifun M h [x; y] = ifun M h [x'; y'] -> x = x' /\ y = y';
    st_atomic : forall h x y c d, named (TCst h) None "$list" -> cval c = Some d ->
      ifun M h [x; y] <> icst M c }.

  (** [s] is in [t] at position [n] *)
  Definition occurs_at (s t : string) (n : nat) : Prop :=
    exists u w, t = u ++ s ++ w /\ String.length u = n.
  Definition occurs (s t : string) : Prop := exists n, occurs_at s t n.
  Definition distinct_symbol (t : term) (s : string) : Prop := named t (Some "#") s.
  Definition list_term (t x y : term) : Prop := exists h, t = TRec [h; x; y] /\ named h None "$list".
End Spec.
