(** The public methods of [transform::Api] that only choose between, or supply arguments
    to, the calls of [Machine.op].  No proofs.

    The argument [other] of the conditional methods says whether the stream type of the
    branch that is not taken is an [ElementStream]; only [typed] looks at it. *)
From Coq Require Import String ZArith.
From stdpp Require Import gmap.
From Verif Require Import Text Event Input Parse Selector Machine.

(** ** Conditional application *)

(** [apply_if], transform.rs:292-303 *)
Definition apply_if (predicate : bool) (builder : pipeline) (other : bool) : op :=
  if predicate then OApplyEither true builder other else OApplyEither false [] other.

(** [apply_if_else], transform.rs:363-380 *)
Definition apply_if_else (predicate : bool) (if_builder else_builder : pipeline)
    (other : bool) : op :=
  if predicate then OApplyEither true if_builder other
  else OApplyEither false else_builder other.

(** [apply_with_option], transform.rs:420-440 *)
Definition apply_with_option {T} (v : option T) (some_builder : T -> pipeline)
    (none_builder : pipeline) (other : bool) : op :=
  match v with
  | Some v => OApplyEither true (some_builder v) other
  | None => OApplyEither false none_builder other
  end.

(** [apply_with_result], transform.rs:487-507 *)
Definition apply_with_result {T E} (v : T + E) (ok_builder : T -> pipeline)
    (err_builder : E -> pipeline) (other : bool) : op :=
  match v with
  | inl v => OApplyEither true (ok_builder v) other
  | inr e => OApplyEither false (err_builder e) other
  end.

(** [apply_as_boxed], transform.rs:541-548 *)
Definition apply_as_boxed (builder : pipeline) : op := OApply (OIntoBoxed :: builder).

(** [apply_as_boxed_element], transform.rs:1157-1164 *)
Definition apply_as_boxed_element (builder : pipeline) : op :=
  OApply (OIntoBoxedElement :: builder).

(** ** Repetition: the items of a finite iterator and an [FnMut] builder, which may depend
    on how often it was called *)

(** [repeat], transform.rs:987-996 *)
Definition repeat {T} (items : list T) (builder : nat -> T -> pipeline) : op :=
  ORepeat (imap builder items).
(** [repeat_or_else], transform.rs:1039-1055 *)
Definition repeat_or_else {T} (items : list T) (builder : nat -> T -> pipeline)
    (else_builder : pipeline) : op :=
  ORepeatOrElse (imap builder items) else_builder.
(** [repeat_contents], transform.rs:1530-1538 *)
Definition repeat_contents {T} (items : list T) (builder : nat -> T -> pipeline) : op :=
  ORepeatContents (imap builder items).
(** [repeat_contents_or_else], transform.rs:1590-1605 *)
Definition repeat_contents_or_else {T} (items : list T) (builder : nat -> T -> pipeline)
    (else_builder : pipeline) : op :=
  ORepeatContentsOrElse (imap builder items) else_builder.

(** ** Arguments *)

(** [text::IntoIdentifier], text/identifier.rs:158-185 *)
Inductive identifier_arg :=
| IAStatic (s : str)
| IAResult (r : ident + identifier_error)
| IAIdentifier (i : ident).
Definition into_identifier (a : identifier_arg) : ident + identifier_error :=
  match a with
  | IAStatic s => ident_from_static_str s
  | IAResult r => r
  | IAIdentifier i => inl i
  end.

(** [text::IntoValue], text/value.rs:114-163 *)
Inductive value_arg :=
| VAValue (v : value)
| VAStatic (s : str)
| VAInt (z : Z).
Definition into_value (a : value_arg) : value :=
  match a with
  | VAValue v => v
  | VAStatic s => enc_from_unencoded_static_str s
  | VAInt z => value_from_int z
  end.

(** ** Attributes *)

(** [add_attribute], transform.rs:1670-1685 *)
Definition add_attribute (name : identifier_arg) (v : option value_arg) : op :=
  OAddAttribute (into_identifier name) (option_map into_value v).
(** [add_attribute_with_value], transform.rs:1634-1641 *)
Definition add_attribute_with_value (name : identifier_arg) (v : value_arg) : op :=
  add_attribute name (Some v).
(** [add_empty_attribute], transform.rs:1712-1722 *)
Definition add_empty_attribute (name : identifier_arg) : op :=
  OAddAttribute (into_identifier name) None.
(** [add_to_attribute], transform.rs:1756-1773 *)
Definition add_to_attribute (name : identifier_arg) (v separator : value_arg) : op :=
  OAddToAttribute (into_identifier name) (into_value v) (into_value separator).
(** [replace_attribute_value_if_exists], transform.rs:1802-1817 *)
Definition replace_attribute_value_if_exists (name : identifier_arg) (v : value_arg) : op :=
  OReplaceAttribute (into_identifier name) (into_value v).
(** [set_attribute], transform.rs:1884-1899 *)
Definition set_attribute (name : identifier_arg) (v : option value_arg) : op :=
  OSetAttribute (into_identifier name) (option_map into_value v).
(** [set_attribute_with_value], transform.rs:1847-1854 *)
Definition set_attribute_with_value (name : identifier_arg) (v : value_arg) : op :=
  set_attribute name (Some v).
(** [set_empty_attribute], transform.rs:1929-1939 *)
Definition set_empty_attribute (name : identifier_arg) : op :=
  OSetAttribute (into_identifier name) None.
(** [remove_attribute], transform.rs:1964-1974 *)
Definition remove_attribute (name : identifier_arg) : op :=
  ORemoveAttribute (into_identifier name).
