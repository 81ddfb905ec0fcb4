(** The indexes used to find partners for paramodulation: entering a clause, and the partners
    tried for a given clause.
    Code: Reasoner/clstore.c 516-645 (clause and equation sides entered), 696-783 (subterms
    entered), 785-795 (path codes); Reasoner/resolve.c 474-855 (equations of the given clause
    into stored clauses), 862-933, 940-1257 (stored equations into the given clause);
    Reasoner/strat.c 206-222; Reasoner/derive.c 2093-2120; Reasoner/rgenloop.c 446, 498-510
    (order of the steps); Reasoner/hash.c 357-448, 520-692.
    Configuration: EQTERM_ORDER defined, PARA_INTO_ATOM, PARA_INTO_FUNSYMB, EQ_PREFERENCE not.
    Simplifications:
    - the search is not ended meanwhile (enough answers, time, memory: 822-824, 839-844,
      1021, 1232-1246); the inference made for a partner does not change the indexes, so the
      partners are computed as a list;
    - the two indexes of one clause are written one after the other, not literal by literal;
    - the index of rewriters (clstore.c 592-600) is not part of this model. *)
From Coq Require Import List ZArith Bool.
From Verif Require Import Terms UnifyModel MatchModel MetaModel BuildModel DeriveModel HashModel OrdModel.
Import ListNotations.
Open Scope Z_scope.

(** [Stray]: a field is read through a word that is no record; [Exit]: wr_sys_exiterr; [NoMem]:
    no memory; [Fuel]: the bound of the model was too small. *)
Inductive res (A : Type) := Ok (a : A) | Stray | Exit | NoMem | Fuel.
Arguments Ok {A}. Arguments Stray {A}. Arguments Exit {A}. Arguments NoMem {A}. Arguments Fuel {A}.
Definition bind {A B} (r : res A) (f : A -> res B) : res B :=
  match r with Ok a => f a | Stray => Stray | Exit => Exit | NoMem => NoMem | Fuel => Fuel end.
(** A loop collecting what each round gives. *)
Fixpoint gather {A B} (f : A -> res (list B)) (l : list A) : res (list B) :=
  match l with
  | [] => Ok []
  | x :: l => bind (f x) (fun r => bind (gather f l) (fun r' => Ok (r ++ r')))
  end.
(** A loop over literals with their numbers. *)
Fixpoint gather_i {A B} (f : Z -> A -> res (list B)) (i : Z) (l : list A) : res (list B) :=
  match l with
  | [] => Ok []
  | x :: l => bind (f i x) (fun r => bind (gather_i f (i + 1) l) (fun r' => Ok (r ++ r')))
  end.

(** Options of the search strategy; numbers are 0 when not set. *)
Record popts := {
  o_hyper : bool; o_relaxed : bool;       (* hyperres_strat, relaxed_hyperres_strat *)
  o_queryfocus : bool; o_rewrite_only : bool; o_posunit : bool;
  o_ordered_only : bool;                  (* prohibit_unordered_para *)
  o_deep : bool;                          (* prohibit_deep_para *)
  o_nonested : bool;                      (* prohibit_nested_para *)
  o_backsubsume : bool;
  o_arglen : Z; o_shortlen : Z            (* res_arglen_limit, res_shortarglen_limit *)
}.

(** A node's contents, under a key: (key, (term, clause, path)). *)
Definition entry : Type := Z * (Z * Z * Z).

(** An inference that is made.
    [AFrom i left x y c yterm path]: literal [i] of the given clause, side [x] replaced by [y],
    into clause [c] at the place coded by [path], where [yterm] is.
    [AInto path xterm c i left x y]: literal [i] of the stored clause [c], side [x] replaced by
    [y], into the given clause at the place coded by [path], where [xterm] is. *)
Inductive attempt :=
| AFrom (i : Z) (left : bool) (x y : term) (c : Z) (yterm : term) (path : Z)
| AInto (path : Z) (xterm : term) (c : Z) (i : Z) (left : bool) (x y : term).

Section Pm.
  Variable dhash : dblv -> Z.
  Variable ltext : Z -> list Z.
  Variable word : cst -> Z.
  (** What the word of a term denotes; the stored clause at an offset; the word in a field of a
      literal of a clause (clause, literal number, field numbers on the way down, 0 being the
      symbol). *)
  Variable den : Z -> term.
  Variable cls : Z -> scl.
  Variable fld : Z -> Z -> list nat -> Z.
  Variable eqc : cst.
  (** wr_get_cl_history_tag(g,cl)==WR_HISTORY_TAG_PARA, wr_get_cl_backsubsumed, wr_answer_lit *)
  Variable nested : Z -> bool.
  Variable backsubsumed : Z -> bool.
  Variable answer_lit : term -> bool.
  Variable o : popts.

  (** The key of a term: clstore.c 622-628, 715-723, 763, resolve.c 646-652, 974-982, 1040, with
      wr_term_basehash.  A record has at least its symbol; the value for one without is of no
      consequence. *)
  Definition head_key (t : term) : Z :=
    match t with
    | TVar i => var_basehash i
    | TCst c => basehash dhash ltext c
    | TRec [] => 1
    | TRec (TVar i :: _) => var_basehash i
    | TRec (TCst c :: _) => basehash dhash ltext c
    | TRec (TRec _ :: _) => 2
    end.

  (** * Entering a clause *)
  (** wr_cl_store_para_subterms 696-783, for a literal number up to PARA_TERMPATH_MAXLITNR, and
      the walk of resolve.c 969-1038: the number, the field numbers on the way down and the
      subterm for each subterm entered (looked up), and the counter afterwards. *)
  Section SLoop.
    Variable f : term -> Z -> list (Z * list nat * term) * Z.
    Fixpoint spos_loop (k : nat) (xs : list term) (path : Z) : list (Z * list nat * term) * Z :=
      match xs with
      | [] => ([], path)
      | x :: xs =>
          if (k =? 0)%nat && negb (is_rec x) then spos_loop (S k) xs path
          else let (l1, p1) := f x (path + 1) in
               let (l2, p2) := spos_loop (S k) xs p1 in
               (map (fun e => (fst (fst e), k :: snd (fst e), snd e)) l1 ++ l2, p2)
      end.
  End SLoop.
  Definition spos_entry (depth path : Z) (t : term) : list (Z * list nat * term) :=
    if depth <? 1 then [] else if o_deep o && (2 <? depth) then [] else [(path, [], t)].
  Fixpoint spos (t : term) (depth path : Z) {struct t} : list (Z * list nat * term) * Z :=
    if maxpos <? path then ([], path)
    else match t with
         | TVar _ => ([], path)
         | TCst _ => (spos_entry depth path t, path)
         | TRec fs =>
             let (l, p) := spos_loop (fun x p => spos x (depth + 1) p) 0 fs path in
             (l ++ spos_entry depth path t, p)
         end.

  (** 558, 696-783 *)
  Definition para_entries (c i : Z) (l : clit) : list entry :=
    if o_rewrite_only o then []
    else if maxlitnr <? i then []
    else map (fun e => (head_key (snd e), (fld c i (snd (fst e)), c, encode_termpath i (fst (fst e)))))
             (fst (spos (latom l) 0 0)).

  Definition order_now (n : nat) (a b : term) : res Z :=
    match order_eqterms word n (fun _ => None) a b with Some r => Ok r | None => Fuel end.
  (** 570-571 *)
  Definition stored_order (n : nat) (a b : term) : res Z :=
    if o_queryfocus o then Ok 3 else order_now n a b.

  (** 560-590, wr_cl_store_eq_arg 607-645 *)
  Definition eq_entries (n : nat) (c len i : Z) (l : clit) : res (list entry) :=
    if o_posunit o && negb (len =? 1) then Ok []
    else if meta_is_neg (lmeta l) then Ok []
    else
      match equality_atom eqc (latom l) with
      | None => Stray
      | Some false => Ok []
      | Some true =>
          match eq_sides (latom l) with
          | None => Ok []
          | Some (a, b) =>
              bind (stored_order n a b) (fun r =>
                if o_ordered_only o && ((r =? 0) || (r =? 3)) then Ok []
                else if o_rewrite_only o then Ok []
                else Ok ((if ((r =? 1) || (r =? 3)) && negb (is_var a)
                          then [(head_key a, (fld c i [1%nat], c, encode_termpath i 1))] else [])
                         ++ (if ((r =? 2) || (r =? 3)) && negb (is_var b)
                             then [(head_key b, (fld c i [2%nat], c, encode_termpath i 0))] else [])))
          end
      end.

  (** wr_hyperres_satellite_cl, derive.c 2093-2120, and the test made at 538, 531, 891 *)
  Definition satellite (c : scl) : bool :=
    match c with SFact _ _ => true | SRule l => forallb (fun x => negb (meta_is_neg (lmeta x))) l end.
  Definition kept_out (c : scl) : bool := o_hyper o && negb (o_relaxed o) && negb (satellite c).

  Definition ncl (c : scl) : Z := Z.of_nat (length (cl_lits c)).
  (** wr_cl_store_para_terms 516-604; [rs i]: resolvability[i+1] is not 0 *)
  Definition all_para (c : Z) (rs : Z -> bool) : res (list entry) :=
    if kept_out (cls c) then Ok []
    else gather_i (fun i l => if negb (rs i) && negb (o_queryfocus o) then Ok [] else Ok (para_entries c i l))
                  0 (cl_lits (cls c)).
  Definition all_eq (n : nat) (c : Z) (rs : Z -> bool) : res (list entry) :=
    if kept_out (cls c) then Ok []
    else gather_i (fun i l => if negb (rs i) && negb (o_queryfocus o) then Ok [] else eq_entries n c (ncl (cls c)) i l)
                  0 (cl_lits (cls c)).

  (** The additions, with the addresses malloc returns. *)
  Fixpoint add_all (l : hlist) (es : list entry) (addrs : list (Z * Z)) : res hlist :=
    match es, addrs with
    | [], _ => Ok l
    | (k, (t, c, p)) :: es, (a0, a1) :: addrs =>
        match add_hashlist l k t c p a0 a1 with
        | LOk l => add_all l es addrs
        | LBadHash => Exit
        | LNoMem => NoMem
        end
    | _, [] => NoMem
    end.

  (** hash_para_terms and hash_eq_terms *)
  Record pidx := { ix_para : hlist; ix_eq : hlist }.
  Definition store (n : nat) (x : pidx) (c : Z) (rs : Z -> bool) (ap ae : list (Z * Z)) : res pidx :=
    bind (all_para c rs) (fun ps => bind (all_eq n c rs) (fun es =>
    bind (add_all (ix_para x) ps ap) (fun p => bind (add_all (ix_eq x) es ae) (fun e =>
    Ok {| ix_para := p; ix_eq := e |})))).

  (** * Partners *)
  (** resolve.c 668-701, 1062-1095 *)
  Definition listed (n : nat) (l : hlist) (key : Z) : res (list (Z * Z * Z)) :=
    if hashlist_len l key =? 0 then Ok []
    else let a := hashlist_start l key in
         if a =? 0 then Exit
         else match walk n l a with Some r => Ok r | None => Fuel end.
  (** The own index and, if there is one, that of the shared knowledge base: 661-694, 1055-1088. *)
  Definition both (n : nat) (own : hlist) (kb : option hlist) (key : Z) : res (list (Z * Z * Z)) :=
    bind (listed n own key) (fun r =>
    match kb with
    | None => Ok r
    | Some l => bind (listed n l key) (fun r' => Ok (r ++ r'))
    end).

  (** strat.c 206-222 *)
  Definition nonans (c : scl) : Z :=
    match c with
    | SFact _ _ => 1
    | SRule l => if (length l <? 2)%nat then Z.of_nat (length l)
                 else Z.of_nat (length l) - Z.of_nat (length (filter (fun x => answer_lit (latom x)) l))
    end.
  Definition is_rule (c : scl) : bool := match c with SRule _ => true | _ => false end.
  (** 705-749, 1099-1126; [given]: nonanslen of the given clause *)
  Definition passed_over (given c : Z) : bool :=
    (o_nonested o && nested c)
    || (o_backsubsume o && backsubsumed c)
    || (negb (o_arglen o =? 0) && is_rule (cls c) && (o_arglen o <? nonans (cls c)))
    || (negb (o_shortlen o =? 0) && (o_shortlen o <? given) && (o_shortlen o <? nonans (cls c))).

  (** 769-811: one candidate; [r]: the order of the sides found at 636 *)
  Definition try_from (n : nat) (given i : Z) (left : bool) (a b : term) (r : Z) (e : Z * Z * Z) : res (list attempt) :=
    let '(yw, c, path) := e in
    if passed_over given c then Ok []
    else
      match unify_term n a (den yw) empty_vst with
      | OutOfFuel => Fuel
      | Done false _ => Ok []
      | Done true s =>
          match (if r =? 3 then order_eqterms word n (bank s) a b else Some r) with
          | None => Fuel
          | Some after =>
              if (o_ordered_only o && (after =? 1))
                 || (negb (o_ordered_only o) && ((after =? 3) || (after =? 1)))
              then Ok [AFrom i left a b c (den yw) path] else Ok []
          end
      end.
  (** 636-850: one side *)
  Definition from_side (n : nat) (x : pidx) (kb : option hlist) (given i : Z) (left : bool) (a b : term) (r : Z) : res (list attempt) :=
    if is_var a then Ok []
    else bind (both n (ix_para x) kb (head_key a)) (gather (try_from n given i left a b r)).
  (** 600-851: the two rounds *)
  Definition second_round (n : nat) (x : pidx) (kb : option hlist) (given i : Z) (a b : term) (r : Z) : res (list attempt) :=
    if r =? 0 then Ok []
    else if r =? 1 then Ok []
    else if o_ordered_only o && (r =? 3) then Ok []
    else bind (order_now n b a) (fun r => from_side n x kb given i false b a r).
  Definition from_sides (n : nat) (x : pidx) (kb : option hlist) (given i : Z) (a b : term) : res (list attempt) :=
    bind (stored_order n a b) (fun r =>
      if r =? 0 then Ok []
      else if r =? 2 then second_round n x kb given i a b r
      else if o_ordered_only o && (r =? 3) then Ok []
      else bind (order_now n a b) (fun r =>
           bind (from_side n x kb given i true a b r) (fun t =>
           bind (second_round n x kb given i a b r) (fun t' => Ok (t ++ t'))))).
  (** 538-598 *)
  Definition from_lit (n : nat) (x : pidx) (kb : option hlist) (given : Z) (rs : Z -> bool) (i : Z) (l : clit) : res (list attempt) :=
    if negb (rs i) then Ok []
    else if meta_is_neg (lmeta l) then Ok []
    else if negb (is_rec (latom l)) then Ok []
    else
      match equality_atom eqc (latom l) with
      | None => Stray
      | Some false => Ok []
      | Some true =>
          match eq_sides (latom l) with
          | None => Ok []
          | Some (a, b) => from_sides n x kb given i a b
          end
      end.
  (** wr_paramodulate_from_all_active *)
  Definition from_all (n : nat) (x : pidx) (kb : option hlist) (g : scl) (rs : Z -> bool) : res (list attempt) :=
    if o_posunit o && negb (ncl g =? 1) then Ok []
    else if kept_out g then Ok []
    else gather_i (from_lit n x kb (nonans g) rs) 0 (cl_lits g).

  (** 1099-1217: one candidate *)
  Definition try_into (n : nat) (given i p : Z) (t : term) (e : Z * Z * Z) : res (list attempt) :=
    let '(yw, c, path) := e in
    if passed_over given c then Ok []
    else if o_posunit o && is_rule (cls c) && (1 <? nonans (cls c)) then Ok []
    else
      match unify_term n t (den yw) empty_vst with
      | OutOfFuel => Fuel
      | Done false _ => Ok []
      | Done true _ =>
          let j := decode_litnr path in
          let left := negb (decode_pos path =? 0) in
          let yatom := match cls c with
                       | SFact _ a => Some a
                       | SRule l => option_map latom (nth_error l (Z.to_nat j))
                       end in
          match yatom with
          | None => Stray
          | Some ya =>
              match eq_sides ya with
              | None => Stray
              | Some (a, b) => Ok [AInto (encode_termpath i p) t c j left (den yw) (if left then b else a)]
              end
          end
      end.
  (** 940-1257, from 1040 on *)
  Definition into_pos (n : nat) (x : pidx) (kb : option hlist) (given i : Z) (e : Z * list nat * term) : res (list attempt) :=
    bind (both n (ix_eq x) kb (head_key (snd e))) (gather (try_into n given i (fst (fst e)) (snd e))).
  Definition into_lit (n : nat) (x : pidx) (kb : option hlist) (given : Z) (rs : Z -> bool) (i : Z) (l : clit) : res (list attempt) :=
    if negb (rs i) then Ok []
    else if maxlitnr <? i then Ok []
    else gather (into_pos n x kb given i) (fst (spos (latom l) 0 0)).
  (** wr_paramodulate_into_all_active 862-933 *)
  Definition into_all (n : nat) (x : pidx) (kb : option hlist) (g : scl) (rs : Z -> bool) : res (list attempt) :=
    if kept_out g then Ok []
    else gather_i (into_lit n x kb (nonans g) rs) 0 (cl_lits g).

  (** rgenloop.c 446-510: the copy [c] of the given clause is entered, then partners are tried.
      [kb]: the indexes of the shared knowledge base; [tag]: the given clause is itself the
      result of paramodulation. *)
  Definition give (n : nat) (x : pidx) (kb : option pidx) (g : scl) (c : Z) (rs : Z -> bool) (tag : bool)
                  (ap ae : list (Z * Z)) : res (pidx * list attempt) :=
    bind (store n x c rs ap ae) (fun x =>
      if o_rewrite_only o || (o_nonested o && tag) then Ok (x, [])
      else bind (from_all n x (option_map ix_para kb) g rs) (fun t =>
           bind (into_all n x (option_map ix_eq kb) g rs) (fun t' => Ok (x, t ++ t')))).
End Pm.
