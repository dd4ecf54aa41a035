(** UTF-8, and what a location in a text is. *)
From Coq Require Import List NArith Arith.
Import ListNotations.
From Verif Require Import Text Input.
Open Scope N_scope.

(** Unicode scalar values; the characters of a Rust [str]. *)
Definition Scalar (c : char) : Prop := c < 55296 \/ 57344 <= c < 1114112.
Definition ScalarStr (s : str) : Prop := forall c, In c s -> Scalar c.

(** UTF-8 encoding *)
Definition utf8_char (c : char) : list N :=
  if c <? 128 then [c]
  else if c <? 2048 then [192 + c / 64; 128 + c mod 64]
  else if c <? 65536 then [224 + c / 4096; 128 + (c / 64) mod 64; 128 + c mod 64]
  else [240 + c / 262144; 128 + (c / 4096) mod 64; 128 + (c / 64) mod 64; 128 + c mod 64].
Definition utf8 (s : str) : list N := flat_map utf8_char s.

(** [t] is the part of [p] after its last newline, or all of [p] if there is none. *)
Definition LastLine (p t : str) : Prop :=
  ~ In 10 t /\ (p = t \/ exists a, p = a ++ 10 :: t).

(** [l] is the location after the text [p]. *)
Definition AtPrefix (p : str) (l : location) : Prop :=
  (line l = 1 + count_occ N.eq_dec p 10%N)%nat /\
  (exists t, LastLine p t /\ column l = 1 + length t)%nat /\
  offset l = length (utf8 p).
