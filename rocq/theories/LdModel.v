(** Reading of JSON objects (JSON-LD): Parser/jsparse.c 1074-1238, 1572-2066, 2379-2408, 3181-3227 (the
    copy in Builtparser is the same).  The formulas around and inside are read as in JsModel.v.

    Left out: "@context" (an object that has it gives [Odd]); objects inside an array of a formula
    (only "@logic" or "@question" with an object as the value is followed); null and numbers with a
    fraction inside formulas; an "@id" that is not a string; "ask"; the names of formulas; the printing of
    a converted file.  The counter of generated names is an int in the memory segment
    (dballoc.c 137); its overflow after 2^31 names is left out.  Every step with
    parse_errflag ends the reading. *)
From Coq Require Import ZArith List String Ascii Bool.
From Verif Require Import ClausModel JsModel.
Import ListNotations.
Open Scope string_scope.
Open Scope list_scope.

Inductive jv :=
| NNull | NBool (b : bool) | NInt (z : Z) | NStr (s : string) | NArr (l : list jv) | NObj (kvs : list (string * jv)).

(** A value without objects and null *)
Fixpoint plainv (v : jv) : option json :=
  match v with
  | NNull | NObj _ => None
  | NBool b => Some (JBool b)
  | NInt z => Some (JInt z)
  | NStr s => Some (JStr s)
  | NArr l =>
      match (fix go (l : list jv) : option (list json) :=
               match l with
               | [] => Some []
               | x :: r => match plainv x, go r with Some a, Some b => Some (a :: b) | _, _ => None end
               end) l with
      | Some js => Some (JArr js)
      | None => None
      end
  end.

(** wg_get_keystrval, dbmpool.c 540-561: the value of the first such key.  wg_atomstr1 is NULL for an
    empty key (778-780), and strcmp follows it. *)
Fixpoint get (s : string) (kvs : list (string * jv)) : res (option jv) :=
  match kvs with
  | [] => Done None
  | (k, v) :: r => if String.eqb k "" then Crash else if String.eqb k s then Done (Some v) else get s r
  end.
Definition is_some {A} (o : option A) : bool := match o with Some _ => true | None => false end.
(** wr_json_special_keystr 2005-2024 *)
Definition special_key (s : string) : bool :=
  mems s [""; "@id"; "@type"; "@list"; "@set"; "@context"; "@graph"; "@name"; "@role"; "@logic"].

(** wr_json_mkid 1929-2003, without "@base": a name that is generated, and a name that was given.
    A given blank node or variable stays as it is (1950-1954), other names become constants (1988). *)
Definition crtd (k : nat) : string := "_:crtd_" ++ zdec (Z.of_nat k).
Definition made (k : nat) : sx := Sa (anon (crtd k)).
Definition mkid (s : string) : sx :=
  if String.prefix "_:" s || String.prefix "?:" s then Sa (Sym TUri s) else Sa (anon s).
Definition given (v : jv) : res sx :=
  match v with NStr s => if String.eqb s "" then Odd else Done (mkid s) | _ => Odd end.

(** wr_json_mkarc 1850-1863; [gid]: jsonld_graphid *)
Definition uris (s : string) : sx := Sa (Sym TUri s).
Definition mkarc (gid : option sx) (id : sx) (key : string) (v : sx) : sx :=
  match gid with
  | Some g => Sl [uris "$narc"; id; uris key; v; g]
  | None => Sl [uris "$arc"; id; uris key; v]
  end.
(** wr_json_add_with_and 3181-3193, wr_json_add_with_negated_or 3195-3208 *)
Definition add_and (f prev : option sx) : option sx :=
  match f, prev with
  | Some x, Some p => Some (Sl [Sa (Con CAnd); x; p])
  | Some x, None => Some x
  | None, _ => prev
  end.
Definition neg_or (x p : sx) : sx := Sl [Sa (Con COr); x; Sl [Sa (Con CNot); p]].

(** wr_process_json_list 2379-2408: the list is reversed first, so the first element ends outside *)
Fixpoint mklist (x : sx) : sx :=
  match x with
  | Sa a => Sl [uris "$list"; Sa a; uris "$nil"]
  | Sl l => fold_right (fun y r => Sl [uris "$list"; match y with Sa _ => y | Sl _ => mklist y end; r]) (uris "$nil") l
  end.
(** 1800-1802; strcmp follows the NULL of an empty string *)
Definition list_value (v : jv) : res sx :=
  match plainv v with
  | None => Odd
  | Some (JStr s) => if String.eqb s "" then Crash else if String.eqb s "$nil" then Done (uris "$nil") else Done (mklist (uris s))
  | Some (JArr []) => Done (uris "$nil")
  | Some j => Done (mklist (raw j))
  end.
(** "@value" 1788-1794 *)
Definition at_value (o : option jv) : res (option sx) :=
  match o with
  | None => Done None
  | Some NNull => Done (Some (Sa (anon "$gk_null$")))
  | Some (NStr s) => Done (Some (Sa (anon s)))
  | Some (NArr []) => Done (Some (Sa (anon "$nil")))
  | Some (NBool b) => Done (Some (raw (JBool b)))
  | Some (NInt z) => Done (Some (raw (JInt z)))
  | Some _ => Odd
  end.

(** wr_add_struct_key_atoms 1748-1848.  [nest]: wr_process_json_formula below the top, with the
    graph it is in.  The generated name of a nested object is put into the object as its "@id"; there
    it is an atom of the other type than a string, and both are read as the same constant (tatom). *)
Fixpoint key_atoms (nest : option sx -> jv -> nat -> res (option sx * nat)) (gid : option sx) (id : sx)
  (key : string) (v : jv) (ext : option sx) (seed : nat) : res (option sx * nat) :=
  let simple x := Done (add_and (Some (mkarc gid id key x)) ext, seed) in
  match v with
  | NNull => Done (ext, seed)
  | NBool b => simple (raw (JBool b))
  | NInt z => simple (raw (JInt z))
  | NStr s => if String.eqb s "" then Crash                                             (* wr_json_isvar 2060 *)
              else simple (if String.prefix "?:" s then uris s else Sa (anon s))
  | NArr [] => simple (Sa (anon "$nil"))
  | NArr l =>
      (fix loop (l : list jv) (ext : option sx) (seed : nat) : res (option sx * nat) :=
         match l with
         | [] => Done (ext, seed)
         | x :: r => '(ext, seed) <- key_atoms nest gid id key x ext seed ;; loop r ext seed
         end) l ext seed
  | NObj [] => Done (ext, seed)
  | NObj kvs =>
      l1 <- get "@list" kvs ;;
      l <- match l1 with Some _ => Done l1 | None => get "@set" kvs end ;;
      val <- get "@value" kvs ;;
      mv <- at_value val ;;
      match l with
      | Some lv => x <- list_value lv ;; simple x
      | None =>
          match mv with
          | Some x => simple x
          | None =>
              oid <- get "@id" kvs ;;
              '(newid, kvs', seed) <-
                 match oid with
                 | Some i => x <- given i ;; Done (x, kvs, seed)
                 | None => Done (made seed, ("@id", NStr (crtd seed)) :: kvs, S seed)
                 end ;;
              let res1 := add_and (Some (mkarc gid id key newid)) ext in
              '(r, seed) <- nest gid (NObj kvs') seed ;;
              Done (match r with Some _ => add_and r res1 | None => res1 end, seed)
          end
      end
  end.

(** The loop over the elements of "@graph" 1674-1684.  An object is walked like an array: its mark,
    its keys and its values. *)
Fixpoint graph_els (nest : jv -> nat -> res (option sx * nat)) (l : list jv) (ext : option sx) (seed : nat)
  : res (option sx * nat) :=
  match l with
  | [] => Done (ext, seed)
  | x :: r => '(c, seed) <- nest x seed ;; graph_els nest r (add_and c ext) seed
  end.
Definition graph_list (v : jv) : res (list jv) :=
  match v with
  | NArr (x :: r) => Done (x :: r)
  | NObj kvs => Done (NStr "$gk_struct$" :: flat_map (fun p => [NStr (fst p); snd p]) kvs)
  | _ => Odd
  end.
(** The loop over all keys 1632-1692.  [named]: origid || foundkey. *)
Fixpoint entries (nest : option sx -> jv -> nat -> res (option sx * nat)) (gid : option sx) (named : bool)
  (id : option sx) (ext : option sx) (seed : nat) (kvs : list (string * jv)) : res (option sx * option sx * nat) :=
  let ensure := match id with Some i => (i, seed) | None => (made seed, S seed) end in
  match kvs with
  | [] => Done (id, ext, seed)
  | (k, v) :: r =>
      if negb (special_key k) then
        let '(i, seed) := ensure in
        '(ext, seed) <- key_atoms nest gid i k v ext seed ;;
        entries nest gid named (Some i) ext seed r
      else if String.eqb k "@type" then
        let '(i, seed) := ensure in
        '(ext, seed) <- key_atoms nest gid i type_uri v ext seed ;;
        entries nest gid named (Some i) ext seed r
      else if String.eqb k "@graph" then
        let '(id, seed) := if named then (Some (fst ensure), snd ensure) else (id, seed) in
        l <- graph_list v ;;
        '(ext, seed) <- graph_els (nest id) l ext seed ;;
        entries nest gid named id ext seed r
      else entries nest gid named id ext seed r
  end.

(** What wr_process_json_formula_struct leaves under "@logic" *)
Inductive content := CSx (x : sx) | CObj (kvs : list (string * jv)).
Definition logic_of (o : option jv) : res (option content) :=
  match o with
  | None => Done None
  | Some (NObj kvs) => Done (Some (CObj kvs))
  | Some v => match plainv v with Some j => Done (Some (CSx (raw j))) | None => Odd end
  end.
Definition asks (role : option jv) : res bool :=
  match role with
  | None => Done false
  | Some (NStr r) => if String.eqb r "" then Crash else Done (mems r ["question"; "conjecture"])
  | Some _ => Odd
  end.

(** wr_process_json_formula_struct 1572-1746, and wr_process_json_formula_aux 1371-1386 on what it
    leaves.  An object without "@logic" and without triples is left as a list with NULL in it, which
    wr_process_json_term answers with NULL, without an error (2352): the result is None. *)
Fixpoint struct (n : nat) (top : bool) (gid : option sx) (kvs : list (string * jv)) (seed : nat)
  : res (option content * nat) :=
  match n with
  | O => Fuel
  | S n =>
      let nest (gid : option sx) (v : jv) (seed : nat) : res (option sx * nat) :=
        match v with
        | NObj kvs =>
            _ <- get "@question" kvs ;;
            '(c, seed) <- struct n false gid kvs seed ;;
            match c with
            | None => Done (None, seed)
            | Some c => '(o, seed) <- conv n false gid c seed ;;
                        Done (match o with Some (x, _) => Some x | None => None end, seed)
            end
        | NNull => Err
        | _ => match plainv v with
               | None => Odd
               | Some j => '(x, _) <- aux n [] (raw j) [] ;; Done (Some x, seed)
               end
        end in
      match kvs with
      | [] => Done (None, seed)
      | _ =>
          oid <- get "@id" kvs ;;
          _ <- get "@name" kvs ;;
          role <- get "@role" kvs ;;
          graph <- get "@graph" kvs ;;
          logic <- get "@logic" kvs ;;
          question <- get "@question" kvs ;;
          if (is_some role || is_some question) && negb top then Err else
          ctxt <- get "@context" kvs ;;
          if is_some ctxt then Odd else
          id <- match oid with None => Done None | Some v => i <- given v ;; Done (Some i) end ;;
          let named := is_some oid || existsb (fun p => negb (special_key (fst p))) kvs in
          '(_, ext, seed) <- entries nest gid named id None seed kvs ;;
          lg <- logic_of logic ;;
          match ext with
          | None => Done (lg, seed)
          | Some x =>
              match lg with
              | None => Done (Some (CSx x), seed)
              | Some (CObj _) => Odd
              | Some (CSx l) =>
                  a <- asks role ;;
                  Done (Some (CSx (if a : bool then neg_or l x else Sl [Sa (Con CAnd); l; x])), seed)
              end
          end
      end
  end
with conv (n : nat) (top : bool) (gid : option sx) (c : content) (seed : nat)
  : res (option (sx * list string) * nat) :=
  match n with
  | O => Fuel
  | S n =>
      match c with
      | CSx x => '(y, fv) <- aux n [] x [] ;; Done (Some (y, fv), seed)
      | CObj [] => Done (None, seed)
      | CObj kvs =>
          '(c', seed) <- struct n top gid kvs seed ;;
          match c' with None => Err | Some c' => conv n top gid c' seed end
      end
  end.

(** "@question" at the top 1106-1127: it is turned into "@logic" with the role question *)
Fixpoint requestion (kvs : list (string * jv)) : list (string * jv) :=
  match kvs with
  | [] => []
  | (k, v) :: r => if String.eqb k "@question" then ("@logic", v) :: r else (k, v) :: requestion r
  end.
(** 1135-1169: the role of the formula *)
Definition role_of (o : option jv) : res role :=
  match o with
  | None => Done RAx
  | Some (NStr r) =>
      if String.eqb r "" then Crash
      else if mems r ["axiom"; "assumption"; "hypothesis"] then Done RAx
      else if String.eqb r "conjecture" then Done RConj
      else if String.eqb r "negated_conjecture" then Done RNegConj
      else if String.eqb r "question" then Done RQuest
      else Err
  | Some _ => Err
  end.
(** The end of the reading, 1183-1238 and dbparse.c 933-938, as in JsModel.read *)
Definition finish (r : role) (x : sx) (fv0 : list string) : sx :=
  let fv := rev fv0 in
  match r with
  | RAx | RNegConj => close fv x
  | RConj => mk_not (close fv x)
  | RQuest =>
      match fv with
      | [] => mk_not x
      | _ => close fv (Sl [Sa (Con CImp); x; Sl (Sa (Sym TUri "$ans") :: map (fun s => Sa (Sym TUri s)) fv)])
      end
  end.
(** wr_process_json_formula 1074-1238 for an object of the list of formulas *)
Definition read_obj (n : nat) (kvs : list (string * jv)) (seed : nat) : res (option sx * nat) :=
  q <- get "@question" kvs ;;
  kvs <- match q with
         | None => Done kvs
         | Some _ =>
             l <- get "@logic" kvs ;;
             r <- get "@role" kvs ;;
             if is_some l || is_some r then Err else Done (("@role", NStr "question") :: requestion kvs)
         end ;;
  '(c, seed) <- struct n true None kvs seed ;;
  r <- get "@role" kvs ;;
  r <- role_of r ;;
  match c with
  | None => Done (None, seed)
  | Some c =>
      '(o, seed) <- conv n true None c seed ;;
      Done (match o with Some (x, fv) => Some (finish r x fv) | None => None end, seed)
  end.
(** The loop over a file of objects, wr_preprocess_json_clauselist 859-910; the counter goes on *)
Fixpoint read_objs (n : nat) (l : list (list (string * jv))) (seed : nat) : res (list sx * nat) :=
  match l with
  | [] => Done ([], seed)
  | [] :: _ => Err
  | kvs :: r =>
      '(o, seed) <- read_obj n kvs seed ;;
      '(xs, seed) <- read_objs n r seed ;;
      Done (match o with Some x => x :: xs | None => xs end, seed)
  end.
