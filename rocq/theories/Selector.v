(** Model of [src/select.rs] and of the error types of [src/event.rs] and
    [src/template.rs] that streams can carry.  No proofs. *)
From Coq Require Import String List NArith Bool.
From Verif Require Import Text Event Input Parse.
Import ListNotations.

(** ** Errors *)

(** [ClassesError], select.rs:409-419 *)
Inductive classes_error :=
| ClassesEmpty
| ClassesIdentifier (index : nat) (error : identifier_error).

(** [StaticError], select.rs:546-566 *)
Inductive static_error :=
| StaticUnrestricted
| StaticTag (error : identifier_error)
| StaticId (error : identifier_error)
| StaticClass (index : nat) (error : identifier_error).

(** [select::Error], select.rs:752-773 *)
Inductive selector_error :=
| SelErrTag (error : identifier_error)
| SelErrId (error : identifier_error)
| SelErrClass (error : identifier_error)
| SelErrClasses (error : classes_error).

(** [InputError], template.rs:21-32 *)
Inductive input_error :=
| LengthLimitExceeded (limit : nat)
| ParseError (error : parse_error).

(** [FileError], template.rs:60-89.  [io::Error] and [Utf8Error] are opaque: the
    former is a code, of the latter only [valid_up_to] is kept. *)
Inductive file_error :=
| FileOpen (path : str) (code : N)
| FileRead (path : str) (code : N)
| FileInput (path : str) (error : input_error)
| FileDecode (path : str) (valid_up_to : nat).

(** [MalformedReason], event.rs:619-637 *)
Inductive malformed_reason :=
| MUnexpectedClosingTag (tag : ident)
| MExpectedOpeningTag (ev : option event)
| MExpectedClosingTag (ev : option event) (tag : ident).

(** [StreamError], event.rs:491-522 ([AssertionError], event.rs:459-466, has the
    single variant [Malformed]) *)
Inductive stream_error :=
| SEAssertion (error : malformed_reason)
| SEInput (error : input_error)
| SEFile (error : file_error)
| SEIdentifier (error : identifier_error)
| SESelector (error : selector_error)
| SEStaticSelector (error : static_error).

(** [unexpected_close], event.rs:583-589 *)
Definition unexpected_close (tag : ident) := SEAssertion (MUnexpectedClosingTag tag).
(** [missing_close], event.rs:591-598 *)
Definition missing_close (tag : ident) := SEAssertion (MExpectedClosingTag None tag).
(** [expected_close], event.rs:600-606 *)
Definition expected_close (ev : option event) (tag : ident) :=
  SEAssertion (MExpectedClosingTag ev tag).
(** [expected_open], event.rs:608-614 *)
Definition expected_open (ev : option event) := SEAssertion (MExpectedOpeningTag ev).

(** ** Selectors *)

(** [Static], select.rs:658-662 *)
Record static_selector := Static
  { st_tag : option str; st_id : option str; st_classes : option str }.

(** The library's selectors: [Id] select.rs:156-158, [Tag] 267-269, [Class] 381-383,
    [Classes] 504-506, [Static]; and any user implementation of the [Selector]
    trait (select.rs:20-24), assumed to be a function of the event. *)
Inductive selector :=
| SelId (identifier : ident)
| SelTag (identifier : ident)
| SelClass (identifier : ident)
| SelClasses (identifiers : list ident)
| SelStatic (s : static_selector)
| SelCustom (f : event -> bool).

(** [Selector for Static], select.rs:664-690 *)
Definition static_matches (s : static_selector) (e : event) : bool :=
  match element_tag_start e, event_attributes e with
  | Some tag, Some attrs =>
      if match st_tag s with
         | Some match_tag => negb (ident_is_eq tag match_tag)
         | None => false
         end then false
      else if match st_id s with
              | Some match_id => negb (has_id attrs match_id)
              | None => false
              end then false
      else match st_classes s with
           | Some classes => forallb (has_class attrs) (split_char c_dot classes)
           | None => true
           end
  | _, _ => false
  end.

(** [Selector::matches]: [Id] select.rs:171-180, [Tag] 289-298, [Class] 396-405,
    [Classes] 528-542, [Static] 664-690 *)
Definition matches (s : selector) (e : event) : bool :=
  match s with
  | SelId identifier =>
      match event_attributes e with
      | Some attrs => has_id attrs (id_str identifier)
      | None => false
      end
  | SelTag identifier =>
      match element_tag_start e with
      | Some tag => ident_eqb tag identifier
      | None => false
      end
  | SelClass identifier =>
      match event_attributes e with
      | Some attrs => has_class attrs (id_str identifier)
      | None => false
      end
  | SelClasses identifiers =>
      match event_attributes e with
      | Some attrs => forallb (fun i => has_class attrs (id_str i)) identifiers
      | None => false
      end
  | SelStatic s => static_matches s e
  | SelCustom f => f e
  end.

(** ** Constructing selectors *)

(** [FromStr for Id], select.rs:160-169 with [From<IdError>], 106-115 *)
Definition id_from_str (v : str) : selector + stream_error :=
  match ident_from_str v with
  | inl i => inl (SelId i)
  | inr e => inr (SESelector (SelErrId e))
  end.
(** [FromStr for Tag], select.rs:278-287 with [From<TagError>], 213-222 *)
Definition tag_from_str (v : str) : selector + stream_error :=
  match ident_from_str v with
  | inl i => inl (SelTag i)
  | inr e => inr (SESelector (SelErrTag e))
  end.
(** [FromStr for Class], select.rs:385-394 with [From<ClassError>], 331-340 *)
Definition class_from_str (v : str) : selector + stream_error :=
  match ident_from_str v with
  | inl i => inl (SelClass i)
  | inr e => inr (SESelector (SelErrClass e))
  end.

(** the loop of [Classes::from_str_iterator], select.rs:515-520 *)
Fixpoint classes_loop (index : nat) (vs : list str) (acc : list ident)
  : list ident + classes_error :=
  match vs with
  | [] => inl acc
  | v :: vs' =>
      match ident_from_str v with
      | inl i => classes_loop (S index) vs' (acc ++ [i])
      | inr e => inr (ClassesIdentifier index e)
      end
  end.
(** [Classes::from_str_iterator], select.rs:511-525 with [From<ClassesError>],
    445-452 *)
Definition classes_from_str_iterator (vs : list str) : selector + stream_error :=
  match classes_loop 0 vs [] with
  | inr e => inr (SESelector (SelErrClasses e))
  | inl [] => inr (SESelector (SelErrClasses ClassesEmpty))
  | inl ids => inl (SelClasses ids)
  end.

(** first class that is not an identifier, select.rs:735-738 *)
Fixpoint check_classes (index : nat) (classes : list str) : option static_error :=
  match classes with
  | [] => None
  | class :: rest =>
      match validate class with
      | inl _ => check_classes (S index) rest
      | inr error => Some (StaticClass index error)
      end
  end.

(** tag part of [into_selector], select.rs:702-714 *)
Definition static_tag_part (s : str) : (option str * str) + static_error :=
  let tag_len := match find_char (in_chars [c_hash; c_dot]) s with
                 | Some len => len
                 | None => length s
                 end in
  match tag_len with
  | O => inl (None, s)
  | _ => match validate (firstn tag_len s) with
         | inl tag => inl (Some tag, skipn tag_len s)
         | inr error => inr (StaticTag error)
         end
  end.

(** id part of [into_selector], select.rs:715-730 *)
Definition static_id_part (rest : str) : (option str * str * bool) + static_error :=
  match rest with
  | c :: rest' =>
      if N.eqb c c_hash then
        let '(id, rest, expect_class) :=
          match find_char (N.eqb c_dot) rest' with
          | Some len => (firstn len rest', skipn (1 + len) rest', true)
          | None => (rest', [], false)
          end in
        match validate id with
        | inl id => inl (Some id, rest, expect_class)
        | inr error => inr (StaticId error)
        end
      else if N.eqb c c_dot then inl (None, rest', true)
      else inl (None, rest, false)
  | [] => inl (None, rest, false)
  end.

(** [IntoSelector for &'static str], select.rs:692-747 *)
Definition static_into_selector (s : str) : static_selector + static_error :=
  match static_tag_part s with
  | inr e => inr e
  | inl (tag, rest) =>
      match static_id_part rest with
      | inr e => inr e
      | inl (id, rest, expect_class) =>
          match (if expect_class then check_classes 0 (split_char c_dot rest) else None) with
          | Some e => inr e
          | None =>
              let classes := if expect_class then Some rest else None in
              match tag, id, classes with
              | None, None, None => inr StaticUnrestricted
              | _, _, _ => inl (Static tag id classes)
              end
          end
      end
  end.

(** the same with [From<StaticError>], select.rs:600-605, as used by [Api::select]
    and its siblings, transform.rs:665-669 *)
Definition select_str (s : str) : selector + stream_error :=
  match static_into_selector s with
  | inl st => inl (SelStatic st)
  | inr e => inr (SEStaticSelector e)
  end.
