(** Specifications about whole documents: limits, joining two documents, and errors that
    more text cannot remove. *)
From Coq Require Import String List NArith Arith.
Import ListNotations.
From Verif Require Import Text Event Input Parse SpecText SpecAttr SpecLocation SpecParse.
Open Scope N_scope.

(** ** Limits *)

(** What a call says about the depth, and about the length, if anything. *)
Inductive SaysDepth : setting -> option nat -> Prop :=
| SD_some d : SaysDepth (MaxStackDepth d) (Some d)
| SD_none : SaysDepth NoMaxStackDepth None.
Inductive SaysLength : setting -> option nat -> Prop :=
| SL_some n : SaysLength (MaxInputLen n) (Some n)
| SL_none : SaysLength NoMaxInputLen None.
(** [v] is what the last call says that says something; [d] if no call does. *)
Definition LastSaid (Says : setting -> option nat -> Prop) (d : option nat) (xs : list setting)
    (v : option nat) : Prop :=
  ((forall x w, In x xs -> ~ Says x w) /\ v = d) \/
  (exists a x b, xs = a ++ x :: b /\ Says x v /\ forall y w, In y b -> ~ Says y w).

(** The limit [a] allows whatever [b] allows. *)
Definition AtLeast (a b : option nat) : Prop :=
  forall x, a = Some x -> exists y, b = Some y /\ (y <= x)%nat.
Definition Looser (o o' : options) : Prop :=
  AtLeast (max_stack_depth o) (max_stack_depth o') /\ AtLeast (max_input_len o) (max_input_len o').

(** ** Two documents one after the other *)

(** The events of both, where text at the end of the first and text at the beginning of the
    second become one text. *)
Inductive Joined : list event -> list event -> list event -> Prop :=
| J_text a x y b :
    Joined (a ++ [Data (raw x)]) (Data (raw y) :: b) (a ++ Data (raw (x ++ y)) :: b)
| J_plain a b :
    ~ (exists a' x y b', a = a' ++ [Data x] /\ b = Data y :: b') -> Joined a b (a ++ b).

(** A location in a text, if the text follows another text that ends at [e]. *)
Definition moved (e l : location) : location :=
  Location (line e + line l - 1)
           (if Nat.eqb (line l) 1 then column e + column l - 1 else column l)
           (offset e + offset l).
(** An error with other locations. *)
Definition relocate (f : location -> location) (e : parse_error) : parse_error :=
  match e with
  | UnsupportedDoctype l d => UnsupportedDoctype (f l) d
  | UnclosedDoctype l => UnclosedDoctype (f l)
  | UnclosedComment l => UnclosedComment (f l)
  | ExpectedOpeningTagClose t l => ExpectedOpeningTagClose t (f l)
  | ExpectedClosingTagClose t l => ExpectedClosingTagClose t (f l)
  | ExpectedOpeningTagIdentifier l => ExpectedOpeningTagIdentifier (f l)
  | InvalidOpeningTagIdentifier l x => InvalidOpeningTagIdentifier (f l) x
  | ExpectedClosingTagIdentifier l => ExpectedClosingTagIdentifier (f l)
  | InvalidClosingTagIdentifier l x => InvalidClosingTagIdentifier (f l) x
  | InvalidAttributeIdentifier l x => InvalidAttributeIdentifier (f l) x
  | InvalidAttributeValue l t a => InvalidAttributeValue (f l) t a
  | UnclosedAttributeValue l t a => UnclosedAttributeValue (f l) t a
  | UnexpectedInput l => UnexpectedInput (f l)
  | MissingClosingTags i os =>
      MissingClosingTags (fst i, f (snd i)) (map (fun x => (fst x, f (snd x))) os)
  | StackLimitExceeded t l k => StackLimitExceeded t (f l) k
  | UnexpectedClosingTag t l => UnexpectedClosingTag t (f l)
  | MismatchedClosingTag ot ol ct cl => MismatchedClosingTag ot (f ol) ct (f cl)
  end.

(** ** Errors that depend on the end of the text *)

(** The word at [l] in [s] reaches to the end of [s]. *)
Definition WordAtEnd (s : str) (l : location) : Prop :=
  exists p x, s = p ++ x /\ AtPrefix p l /\ forall c, In c x -> ~ Delimiter c.
(** After [l] the text [s] ends with the beginning of a doctype; [y] is missing. *)
Definition DoctypeAtEnd (s : str) (l : location) : Prop :=
  exists p x y w kw, s = p ++ 60 :: x /\ AtPrefix (p ++ [60]) l /\
    60 :: x ++ y = lit "<!" ++ w ++ kw /\ Blank w /\ SameName kw (lit "doctype").
(** The error is one that may be due to the text [s] ending where it does: something is not
    closed, something is missing at the end, the last word has a bad character (unless it
    has one that is not ASCII, which is reported before all others), or the text could still
    become a doctype. *)
Definition Pending (s : str) (e : parse_error) : Prop :=
  match e with
  | UnclosedDoctype _ | UnclosedComment _ | UnclosedAttributeValue _ _ _
  | MissingClosingTags _ _ => True
  | ExpectedOpeningTagClose _ l | ExpectedClosingTagClose _ l | ExpectedOpeningTagIdentifier l
  | ExpectedClosingTagIdentifier l | InvalidAttributeValue l _ _ => AtPrefix s l
  | InvalidOpeningTagIdentifier l x => (x <> IdNotAscii /\ WordAtEnd s l) \/ DoctypeAtEnd s l
  | InvalidClosingTagIdentifier l x | InvalidAttributeIdentifier l x =>
      x <> IdNotAscii /\ WordAtEnd s l
  | UnsupportedDoctype _ _ | UnexpectedInput _ | StackLimitExceeded _ _ _
  | UnexpectedClosingTag _ _ | MismatchedClosingTag _ _ _ _ => False
  end.
