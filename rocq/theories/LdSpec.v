(** What JSON objects say: Doc/json_ld_logic.md ("objects are sets of triples"), Examples/README.md
    1800-1960.  Nothing here looks at how the reader works. *)
From Coq Require Import ZArith List String Bool.
From Verif Require Import JsModel JsSpec LdModel.
Import ListNotations.
Open Scope string_scope.
Open Scope list_scope.

(** A name in an object: "?:" and more is a variable, everything else a constant *)
Definition word (s : string) : fterm := if qvar s then TV s else TC s.
Definition word_ok (s : string) : Prop := qvar s = true \/ name_ok s.
(** The keys with a meaning of their own *)
Definition keywords : list string :=
  ["@id"; "@type"; "@list"; "@set"; "@value"; "@context"; "@graph"; "@name"; "@role"; "@logic"; "@question"].
Definition key_ok (k : string) : Prop := word_ok k /\ ~ In k keywords.

(** The ordered list under "@list" *)
Inductive elem_term : jv -> fterm -> Prop :=
| E_num z : int32 z -> elem_term (NInt z) (TN z)
| E_str s : word_ok s -> elem_term (NStr s) (word s)
| E_arr l t : list_term l t -> elem_term (NArr l) t
with list_term : list jv -> fterm -> Prop :=
| L_nil : list_term [] (TC "$nil")
| L_cons v l t r : elem_term v t -> list_term l r -> list_term (v :: l) (TF "$list" [t; r]).

(** A triple: subject, key, value *)
Definition triple := (string * string * fterm)%type.
Definition arc (t : triple) : form := let '(s, k, o) := t in FAtom "$arc" [word s; word k; o].

(** [value_says s k v ns ts]: the value v under the key k of the thing s says the triples ts, when
    the nested objects without "@id" are named ns, in the order of their opening braces *)
Inductive value_says : string -> string -> jv -> list string -> list triple -> Prop :=
| V_null s k : value_says s k NNull [] []
| V_num s k z : int32 z -> value_says s k (NInt z) [] [(s, k, TN z)]
| V_str s k t : word_ok t -> value_says s k (NStr t) [] [(s, k, word t)]
| V_arr s k l ns ts : l <> [] -> values_say s k l ns ts -> value_says s k (NArr l) ns ts
| V_list s k l t : list_term l t -> value_says s k (NObj [("@list", NArr l)]) [] [(s, k, t)]
| V_valn s k z : int32 z -> value_says s k (NObj [("@value", NInt z)]) [] [(s, k, TN z)]
| V_vals s k t : name_ok t -> value_says s k (NObj [("@value", NStr t)]) [] [(s, k, TC t)]
| V_ref s k kvs i ns ts : In ("@id", NStr i) kvs -> object_says i kvs ns ts ->
    value_says s k (NObj kvs) ns ((s, k, word i) :: ts)
| V_anon s k kvs x ns ts : kvs <> [] -> ~ In "@id" (map fst kvs) -> name_ok x -> object_says x kvs ns ts ->
    value_says s k (NObj kvs) (x :: ns) ((s, k, word x) :: ts)
with values_say : string -> string -> list jv -> list string -> list triple -> Prop :=
| VS_nil s k : values_say s k [] [] []
| VS_cons s k v l ns ms ts us : value_says s k v ns ts -> values_say s k l ms us ->
    values_say s k (v :: l) (ns ++ ms) (ts ++ us)
(** [object_says s kvs ns ts]: the object of the thing s *)
with object_says : string -> list (string * jv) -> list string -> list triple -> Prop :=
| O_nil s : object_says s [] [] []
| O_id s r ns ts : word_ok s -> object_says s r ns ts -> object_says s (("@id", NStr s) :: r) ns ts
| O_name s nm r ns ts : object_says s r ns ts -> object_says s (("@name", NStr nm) :: r) ns ts
| O_type s v r ns ms ts us : value_says s type_uri v ns ts -> object_says s r ms us ->
    object_says s (("@type", v) :: r) (ns ++ ms) (ts ++ us)
| O_key s k v r ns ms ts us : key_ok k -> value_says s k v ns ts -> object_says s r ms us ->
    object_says s ((k, v) :: r) (ns ++ ms) (ts ++ us).
(** The object of a file, with the name of the thing among the names if it has no "@id" *)
Inductive says : list (string * jv) -> list string -> list triple -> Prop :=
| S_ref i kvs ns ts : In ("@id", NStr i) kvs -> object_says i kvs ns ts -> says kvs ns ts
| S_anon x kvs ns ts : ~ In "@id" (map fst kvs) -> name_ok x -> object_says x kvs ns ts -> says kvs (x :: ns) ts.
(** Readable: it says something, whatever names are taken *)
Definition readable (kvs : list (string * jv)) : Prop := exists ns ts, says kvs ns ts /\ ts <> [].

(** All names written in an object *)
Fixpoint written (v : jv) : list string :=
  match v with
  | NStr s => [s]
  | NArr l => flat_map written l
  | NObj kvs => flat_map (fun p => fst p :: written (snd p)) kvs
  | _ => []
  end.
(** A formula as a value in an object *)
Fixpoint value_of (j : json) : jv :=
  match j with
  | JBool b => NBool b
  | JInt z => NInt z
  | JStr s => NStr s
  | JArr l => NArr (map value_of l)
  end.
