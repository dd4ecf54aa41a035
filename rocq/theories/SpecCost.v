(** What the number of steps of the parser depends on. *)
From Coq Require Import String List NArith.
Import ListNotations.
From Verif Require Import Text Event SpecText SpecAttr SpecParse.
Local Open Scope nat_scope.

(** The number of characters [<] in a text *)
Definition brackets (s : str) : nat := count_occ N.eq_dec s 60%N.
(** Raw texts with these characters: their number times the length of the text, added up *)
Fixpoint raw_load (evs : list event) : nat :=
  match evs with
  | [] => 0
  | RawData d :: evs => brackets (enc_str d) * length (enc_str d) + raw_load evs
  | _ :: evs => raw_load evs
  end.
(** No place in the text looks like the start of a script, style, title or textarea. *)
Definition NoRawElement (s : str) : Prop :=
  forall p w n r, s = p ++ 60%N :: w ++ n ++ r -> Blank w -> WordEnds r -> ~ RawName n.
(** The positions of the characters [<] in a text that follows [k] characters, added up *)
Fixpoint bracket_positions (k : nat) (s : str) : nat :=
  match s with
  | [] => 0
  | c :: s => (if N.eqb c 60 then k else 0) + bracket_positions (S k) s
  end.
(** ... in all raw texts *)
Fixpoint raw_positions (evs : list event) : nat :=
  match evs with
  | [] => 0
  | RawData d :: evs => bracket_positions 0 (enc_str d) + raw_positions evs
  | _ :: evs => raw_positions evs
  end.
(** A script of [n] characters [<] *)
Definition script_of (n : nat) : str := lit "<script>" ++ repeat 60%N n ++ lit "</script>".
