(** What the text properties mean, without reference to the model's functions. *)
From Coq Require Import String List NArith ZArith.
Import ListNotations.
From Verif Require Import Text.
Open Scope N_scope.

(** The characters that have a meaning in markup, and their entities. *)
Inductive Entity : char -> str -> Prop :=
| E_amp : Entity 38 (lit "&amp;")
| E_lt : Entity 60 (lit "&lt;")
| E_gt : Entity 62 (lit "&gt;")
| E_quot : Entity 34 (lit "&quot;").

(** [Decodes r s]: reading [r] as HTML text with these four entities gives [s]; every
    other '&' is not readable. *)
Inductive Decodes : str -> str -> Prop :=
| D_nil : Decodes [] []
| D_char c r s : c <> 38 -> Decodes r s -> Decodes (c :: r) (c :: s)
| D_entity c e r s : Entity c e -> Decodes r s -> Decodes (e ++ r) (c :: s).

(** No markup can start or end inside [r], nor can an attribute value delimited by double
    quotes end, and every '&' begins one of the four entities. *)
Definition Inert (r : str) : Prop :=
  (forall c, In c r -> c <> 60 /\ c <> 62 /\ c <> 34) /\
  (forall pre post, r = pre ++ 38 :: post ->
     exists c e rest, Entity c e /\ 38 :: post = e ++ rest).

(** Identifiers *)
Definition AsciiSpace (c : char) : Prop := 9 <= c <= 13 \/ c = 32.
Definition ForbiddenChar (c : char) : Prop :=
  In c [61; 34; 47; 62; 60; 38; 44; 59].      (* equals, double quote, slash, >, <, &, comma, semicolon *)
Definition ValidName (s : str) : Prop :=
  s <> [] /\ forall c, In c s -> c < 128 /\ ~ AsciiSpace c /\ ~ ForbiddenChar c.

(** [c] is the first character of [s] with property [P]. *)
Definition FirstSuch (P : char -> Prop) (c : char) (s : str) : Prop :=
  exists pre post, s = pre ++ c :: post /\ P c /\ forall x, In x pre -> ~ P x.

(** Why a string is not an identifier. *)
Definition NameError (s : str) (e : identifier_error) : Prop :=
  match e with
  | IdEmpty => s = []
  | IdNotAscii => exists c, In c s /\ 128 <= c
  | IdWhitespace c =>
      (forall x, In x s -> x < 128) /\ FirstSuch AsciiSpace c s
  | IdForbidden c =>
      (forall x, In x s -> x < 128) /\ (forall x, In x s -> ~ AsciiSpace x) /\
      FirstSuch ForbiddenChar c s
  end.

(** Equality up to the case of ASCII letters *)
Definition SameLetter (x y : char) : Prop :=
  x = y \/ (65 <= x <= 90 /\ y = x + 32) \/ (65 <= y <= 90 /\ x = y + 32).
Definition SameName (a b : str) : Prop := Forall2 SameLetter a b.

(** Decimal numerals *)
Definition digit_value (c : char) : N := c - 48.
Definition IsDigit (c : char) : Prop := 48 <= c <= 57.
Fixpoint read_digits (acc : N) (s : str) : N :=
  match s with
  | [] => acc
  | c :: s => read_digits (10 * acc + digit_value c) s
  end.
(** [s] is the usual decimal numeral of [n]: only digits, no leading zero *)
Definition Numeral (n : N) (s : str) : Prop :=
  s <> [] /\ Forall IsDigit s /\ read_digits 0 s = n /\
  (forall r, s = 48 :: r -> r = []).
Definition SignedNumeral (z : Z) (s : str) : Prop :=
  match z with
  | Zneg p => exists t, s = 45 :: t /\ Numeral (Npos p) t
  | _ => Numeral (Z.to_N z) s
  end.
