(** What it means that a clause is read as it is written. *)
From Coq Require Import String Ascii Bool Arith ZArith Lia List.
From Verif Require Import DateSpec RdModel.
Import ListNotations.
Open Scope string_scope.
Open Scope nat_scope.

(** * Clauses as written
    A term is a name or number, an application f(t1,...,tn), or a bracketed list [t1,...,tn]; an
    atom is a proposition or p(t1,...,tn); a literal is an atom with a sign ([true]: negated). *)
Inductive wterm := WA (a : watom) | WF (f : watom) (l : list wterm) | WL (l : list wterm).
Inductive watomic := WProp (a : watom) | WPred (p : watom) (l : list wterm).
Definition wclause := list (bool * watomic).

(** * Where the parser leaves them
    [held h p t R L]: the pairs reached from [p] in the pool [h] are those of [t].  [L] are the
    pairs that hold the elements of bracketed lists together; [R] are the other ones. *)
Inductive chain (h : heap) : ptr -> list nat -> list ptr -> Prop :=
  | chain_nil : chain h PN [] []
  | chain_cons n p q S ps : nth_error h n = Some (p, q) -> chain h q S ps -> chain h (PC n) (n :: S) (p :: ps).
Inductive held (h : heap) : ptr -> wterm -> list nat -> list nat -> Prop :=
  | held_atom a : held h (PA a) (WA a) [] []
  | held_app n f q S ps ts R L :
      nth_error h n = Some (PA f, q) -> is_lst f = false -> chain h q S ps -> all_held h ps ts R L ->
      held h (PC n) (WF f ts) (n :: S ++ R) L
  | held_empty n f : nth_error h n = Some (PA f, PN) -> is_lst f = true -> held h (PC n) (WL []) [n] []
  | held_list n f m q r S ps t ts R L :
      nth_error h n = Some (PA f, PC m) -> is_lst f = true -> nth_error h m = Some (q, r) ->
      chain h q S ps -> all_held h ps (t :: ts) R L ->
      held h (PC n) (WL (t :: ts)) (n :: m :: R) (S ++ L)
with all_held (h : heap) : list ptr -> list wterm -> list nat -> list nat -> Prop :=
  | all_nil : all_held h [] [] [] []
  | all_cons p t ps ts R L R' L' :
      held h p t R L -> all_held h ps ts R' L' -> all_held h (p :: ps) (t :: ts) (R ++ R') (L ++ L').
Inductive held_atomic (h : heap) : ptr -> watomic -> list nat -> list nat -> Prop :=
  | held_prop a : held_atomic h (PA a) (WProp a) [] []
  | held_pred n f q S ps ts R L :
      nth_error h n = Some (PA f, q) -> chain h q S ps -> all_held h ps ts R L ->
      held_atomic h (PC n) (WPred f ts) (n :: S ++ R) L.
Definition minus : watom := mka TAnon "not" None.
Inductive held_lit (h : heap) : ptr -> bool * watomic -> list nat -> list nat -> Prop :=
  | held_pos p x R L : held_atomic h p x R L -> held_lit h p (false, x) R L
  | held_neg n m p r x R L :
      nth_error h n = Some (PA minus, PC m) -> nth_error h m = Some (p, r) -> held_atomic h p x R L ->
      held_lit h (PC n) (true, x) (n :: m :: R) L.
Inductive held_clause (h : heap) : list ptr -> wclause -> list nat -> list nat -> Prop :=
  | hc_nil : held_clause h [] [] [] []
  | hc_cons p x ps c R L R' L' : held_lit h p x R L -> held_clause h ps c R' L' ->
      held_clause h (p :: ps) (x :: c) (R ++ R') (L ++ L').
Inductive held_clauses (h : heap) : list (list ptr) -> list wclause -> list nat -> list nat -> Prop :=
  | hs_nil : held_clauses h [] [] [] []
  | hs_cons p x ps c R L R' L' : held_clause h p x R L -> held_clauses h ps c R' L' ->
      held_clauses h (p :: ps) (x :: c) (R ++ R') (L ++ L').
(** No pair that holds the elements of a bracketed list together is used in two places. *)
Definition lists_unshared (R L : list nat) : Prop := NoDup L /\ forall n, In n L -> ~ In n R.

(** * What the stored values mean *)
Definition digit (c : ascii) (n : Z) : Prop := (0 <= n <= 9)%Z /\ nat_of_ascii c = Z.to_nat (48 + n).
(** The value of a decimal numeral, place by place *)
Inductive numeral : string -> Z -> Prop :=
  | num_one c n : digit c n -> numeral (String c EmptyString) n
  | num_more c n s z : digit c n -> numeral s z ->
      numeral (String c s) (n * 10 ^ Z.of_nat (String.length s) + z)%Z.
Definition two (a b : ascii) (n : Z) : Prop := exists x y, digit a x /\ digit b y /\ n = (10 * x + y)%Z.

Section Meaning.
  Variable caps quest : bool.
  Variable strtod : string -> option Z.

  Definition starts (c : ascii -> Prop) (s : string) : Prop := exists a r, s = String a r /\ c a.
  Definition capital (c : ascii) : Prop := In c (list_ascii_of_string "ABCDEFGHIJKLMNOPQRSTUVWXYZ").
  (** ?x is a variable; so is a plain name that starts with a capital or a question mark, when the
      settings say so. *)
  Definition variable (a : watom) : Prop :=
    a_ty a = TVar \/
    (a_ty a = TUri /\ a_s2 a = None /\
     ((caps = true /\ starts capital (a_s1 a)) \/ (quest = true /\ starts (fun c => c = "?"%char) (a_s1 a)))).

  (** Constants.  A name is stored as that name, 'x' and "x" as x with a mark of their own; an
      integer that an int can hold as that number; a date or time as the number of that day or
      of that hundredth of a second (C31, C32). *)
  Inductive constant : watom -> sval -> Prop :=
    | con_name s pre : s <> "" -> constant (mka TUri s pre) (VUri s pre)
    | con_empty : constant (mka TAnon "$emptystr" None) (VUri "$emptystr" None)
    | con_int s o z : numeral s z -> (z < 2 ^ 31)%Z -> constant (mka TInt s o) (VInt z)
    | con_dbl s o b : s <> "" -> strtod s = Some b -> constant (mka TDbl s o) (VDbl b)
    | con_date a b c d e f g i o y1 y2 m n :
        two a b y1 -> two c d y2 -> two e f m -> two g i n -> valid_date (100 * y1 + y2) m n ->
        constant (mka TDate (String a (String b (String c (String d (String "-" (String e (String f
                    (String "-" (String g (String i EmptyString)))))))))) o)
                 (VDate (day_number (100 * y1 + y2) m n))
    | con_time a b c d e f o h m n :
        two a b h -> two c d m -> two e f n -> valid_time h m n 0 ->
        constant (mka TTime (String a (String b (String ":" (String c (String d (String ":"
                    (String e (String f EmptyString)))))))) o)
                 (VTime (((h * 60 + m) * 60 + n) * 100)).
  (** Function and predicate symbols; the anonymous ones are those the grammar makes from
      operators. *)
  Inductive symbol : watom -> sval -> Prop :=
    | sym_name s pre : s <> "" -> symbol (mka TUri s pre) (VUri s pre)
    | sym_op s o : In s ["="; "-"; "+"; "*"; "not"; "and"; "or"; "imp"; "eqv"; "all"; "exists"; "@"] ->
        symbol (mka TAnon s o) (VUri s None).
  (** TPTP's names for the arithmetic functions mean the operators. *)
  Inductive arith : watom -> string -> Prop :=
    | ar_sum t o : arith (mka t "$sum" o) "+"
    | ar_dif t o : arith (mka t "$difference" o) "-"
    | ar_pro t o : arith (mka t "$product" o) "*"
    | ar_quo t o : arith (mka t "$quotient" o) "/".
  Inductive function : watom -> sval -> Prop :=
    | fun_arith f s : arith f s -> function f (VUri s None)
    | fun_sym f v : (forall s, ~ arith f s) -> symbol f v -> function f v.

  (** [stands r t v]: [v] is the term [t], with variable x numbered [r x].  A bracketed list is
      $list(first, rest), the empty one $nil. *)
  Inductive stands (r : string -> nat) : wterm -> sval -> Prop :=
    | st_var a : variable a -> stands r (WA a) (VVar (r (a_s1 a)))
    | st_con a v : ~ variable a -> constant a v -> stands r (WA a) v
    | st_app f ts v vs : function f v -> Forall2 (stands r) ts vs -> stands r (WF f ts) (VRec (v :: vs))
    | st_nil : stands r (WL []) (VUri "$nil" None)
    | st_cons t ts v w : stands r t v -> stands r (WL ts) w ->
        stands r (WL (t :: ts)) (VRec [VUri "$list" None; v; w]).
  Inductive stands_atomic (r : string -> nat) : watomic -> sval -> Prop :=
    | sa_prop a v : stands r (WA a) v -> stands_atomic r (WProp a) (VRec [VUri "$pr" None; v])
    | sa_pred p ts v vs : symbol p v -> Forall2 (stands r) ts vs ->
        stands_atomic r (WPred p ts) (VRec (v :: vs)).

  (** The literals of a stored clause *)
  Definition literals (s : stored) : list (bool * sval) :=
    match s with SFact v => [(false, v)] | SRule l => l end.

  (** The occurrences of variables, from left to right *)
  Inductive vars : wterm -> list string -> Prop :=
    | vs_var a : variable a -> vars (WA a) [a_s1 a]
    | vs_con a : ~ variable a -> vars (WA a) []
    | vs_app f ts xs : many ts xs -> vars (WF f ts) xs
    | vs_list ts xs : many ts xs -> vars (WL ts) xs
  with many : list wterm -> list string -> Prop :=
    | many_nil : many [] []
    | many_cons t ts xs ys : vars t xs -> many ts ys -> many (t :: ts) (xs ++ ys)%list.
  Inductive vars_atomic : watomic -> list string -> Prop :=
    | va_prop a xs : vars (WA a) xs -> vars_atomic (WProp a) xs
    | va_pred p ts xs : many ts xs -> vars_atomic (WPred p ts) xs.
  Inductive vars_clause : wclause -> list string -> Prop :=
    | vc_nil : vars_clause [] []
    | vc_cons b x c xs ys : vars_atomic x xs -> vars_clause c ys -> vars_clause ((b, x) :: c) (xs ++ ys)%list.

  (** The terms and clauses this is about: every constant and symbol is of one of the kinds above. *)
  Inductive proper : wterm -> Prop :=
    | pr_var a : variable a -> a_s1 a <> "" -> proper (WA a)
    | pr_con a v : ~ variable a -> constant a v -> proper (WA a)
    | pr_app f v ts : function f v -> Forall proper ts -> proper (WF f ts)
    | pr_list ts : Forall proper ts -> proper (WL ts).
  Inductive proper_atomic : watomic -> Prop :=
    | pa_prop a : proper (WA a) -> proper_atomic (WProp a)
    | pa_pred p v ts : symbol p v -> p <> minus -> Forall proper ts -> proper_atomic (WPred p ts).
  Definition proper_clause (c : wclause) : Prop := c <> [] /\ Forall (fun x => proper_atomic (snd x)) c.

  (** The clause [s] is the clause [c], literal by literal, its variables numbered one to one with
      numbers below their count. *)
  Definition read_as (c : wclause) (s : stored) : Prop :=
    exists xs r, vars_clause c xs /\
      (forall x y, In x xs -> In y xs -> r x = r y -> x = y) /\
      (forall x, In x xs -> r x < length (nodup string_dec xs)) /\
      Forall2 (fun l m => fst l = fst m /\ stands_atomic r (snd l) (snd m)) c (literals s).
  Definition few_variables (c : wclause) : Prop :=
    exists xs, vars_clause c xs /\ length (nodup string_dec xs) <= 1000.
  Definition many_variables (c : wclause) : Prop :=
    exists xs, vars_clause c xs /\ 1000 < length (nodup string_dec xs).
End Meaning.
