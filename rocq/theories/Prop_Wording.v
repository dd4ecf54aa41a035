(** Property C61: the wording of messages. *)
From Coq Require Import String List NArith.
Import ListNotations.
From Verif Require Import Text Event Input Parse Selector Template Messages SpecText SpecWording.
From Verif Require Import WordingProofs.
Open Scope N_scope.

(** ** C61 Messages have the documented wording *)

(** The message of an error is the format for that error, filled with its names, places,
    numbers and characters; there is no other. *)
Theorem C61_messages : forall io utf8 e s, Worded io utf8 e s <-> s = display_error io utf8 e.
Proof. exact wording. Qed.
Print Assumptions C61_messages.

(** Characters are written in their escaped form. *)
Theorem C61_characters : forall c s, CharText c s <-> s = escape_default c.
Proof. exact char_texts. Qed.
Print Assumptions C61_characters.

(** The escaped form tells the character. *)
Theorem C61_escape : forall c d s, CharText c s -> CharText d s -> c = d.
Proof. exact char_text_tells. Qed.
Print Assumptions C61_escape.

(** A case: three elements are open at the end of the input. *)
Example C61_example : forall io utf8,
  Worded io utf8
    (ErrParse (MissingClosingTags (lit "em", Location 12 7 340) [(lit "p", Location 2 1 12); (lit "body", Location 1 1 0)]))
    (lit "Unclosed 'em' tag starting at line 12 column 7 (byte offset 340)(also unclosed are: 'p','body')").
Proof. exact wording_example. Qed.
Example C61_example_escape :
  CharText 10 (lit "\n") /\ CharText 34 (lit "\""") /\ CharText 8239 (lit "\u{202f}") /\
  Worded (fun _ => []) (fun _ => []) (ErrIdentifier (IdForbidden 39)) (lit "Identifier contains forbidden character '\''").
Proof. exact escape_example. Qed.
