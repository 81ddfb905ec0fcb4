(** Codes of proof steps.  Code: Reasoner/history.c 611-717, history.h 99-122.
    The functions return wg_encode_int of these numbers (see C29) and the readers get them
    decoded; all numbers are below 2^24, so 32 bits suffice. *)
From Coq Require Import List ZArith Bool.
Open Scope Z_scope.

Definition TAG_RESOLVE := 1.
Definition TAG_FACTORIAL := 2.
Definition TAG_PARA := 3.
Definition TAG_EQUALITY_REFLEXIVE := 4.
Definition TAG_SIMPLIFY := 5.
Definition TAG_PROPAGATE := 6.
Definition TAG_PROPINST := 7.
Definition TAG_INSTGEN := 8.
Definition TAG_EXTPROP := 9.
Definition TAG_ARITHINST := 10.

Definition cap (n : Z) : Z := if 255 <? n then 255 else n.
Definition pack (tag n1 n2 : Z) : Z := Z.lor (Z.lor (Z.shiftl tag 20) (Z.shiftl n1 8)) n2.

(** 611-620, 622-631, 637-646 *)
Definition hist_resolve (pos1 pos2 : Z) : Z := pack TAG_RESOLVE (cap pos1) (cap pos2).
Definition hist_instgen (pos1 pos2 : Z) : Z := pack TAG_INSTGEN (cap pos1) (cap pos2).
Definition hist_propagate (pos1 pos2 : Z) : Z := pack TAG_PROPAGATE (cap pos1) (cap pos2).
(** 648-658 *)
Definition hist_factorial (pos1 pos2 : Z) : Z :=
  pack TAG_FACTORIAL (cap pos1) (cap (if pos2 <? 0 then 0 else pos2)).
(** 633-635, 660-672, 696-701 *)
Definition hist_arithinst : Z := Z.shiftl TAG_ARITHINST 20.
Definition hist_propinst : Z := Z.shiftl TAG_PROPINST 20.
Definition hist_extprop : Z := Z.shiftl TAG_EXTPROP 20.
Definition hist_simplify : Z := Z.shiftl TAG_SIMPLIFY 20.
(** 675-682 *)
Definition hist_reflexive (pos1 : Z) : Z := Z.lor (Z.shiftl TAG_EQUALITY_REFLEXIVE 20) (Z.shiftl (cap pos1) 8).
(** 684-694 *)
Definition hist_para (pos1 pos2 : Z) (leftflag : bool) : Z :=
  let n := pack TAG_PARA (cap pos1) (cap pos2) in
  if leftflag then Z.lor n (Z.shiftl 1 16) else n.

(** 703-717 *)
Definition get_tag (head : Z) : Z := Z.land (Z.shiftr head 20) 15.
Definition get_extra (head : Z) : Z := Z.land (Z.shiftr head 16) 15.
Definition get_pos1 (head : Z) : Z := Z.land (Z.shiftr head 8) 15.
Definition get_pos2 (head : Z) : Z := Z.land head 15.
