(** Model of the [Display] and [Error::cause] implementations of the error types.
    No proofs. *)
From Coq Require Import String List NArith Bool.
From Verif Require Import Text Event Input Parse Selector.
Import ListNotations.

Definition display_nat (n : nat) : str := decimal (N.of_nat n).

(** [Display for Location], location.rs:70-80 *)
Definition display_location (l : location) : str :=
  lit "line " ++ display_nat (line l) ++ lit " column " ++ display_nat (column l)
  ++ lit " (byte offset " ++ display_nat (offset l) ++ lit ")".

(** the loop of parse.rs:263-268 *)
Fixpoint display_others (index : nat) (others : list (str * location)) : str :=
  match others with
  | [] => []
  | (tag, _) :: rest =>
      (if Nat.eqb index 0 then [] else lit ",") ++ lit "'" ++ tag ++ lit "'"
      ++ display_others (S index) rest
  end.

(** [Display for parse::Error], parse.rs:220-295 *)
Definition display_parse_error (e : parse_error) : str :=
  match e with
  | UnsupportedDoctype l doctype =>
      lit "Unsupported doctype '" ++ doctype ++ lit "' at " ++ display_location l
  | UnclosedDoctype l => lit "Unclosed doctype directive at " ++ display_location l
  | UnclosedComment l => lit "Unclosed comment directive at " ++ display_location l
  | ExpectedOpeningTagClose tag l =>
      lit "Unfinished opening tag '" ++ tag ++ lit "' at " ++ display_location l
  | ExpectedClosingTagClose tag l =>
      lit "Unfinished closing tag '" ++ tag ++ lit "' at " ++ display_location l
  | ExpectedOpeningTagIdentifier l =>
      lit "Expected an identifier for opening tag at " ++ display_location l
  | ExpectedClosingTagIdentifier l =>
      lit "Expected an identifier for closing tag at " ++ display_location l
  | InvalidOpeningTagIdentifier l _ =>
      lit "Invalid opening tag identifier at " ++ display_location l
  | InvalidClosingTagIdentifier l _ =>
      lit "Invalid opening tag identifier at " ++ display_location l      (* sic *)
  | InvalidAttributeIdentifier l _ =>
      lit "Invalid attribute identifier at " ++ display_location l
  | InvalidAttributeValue l tag attribute_name =>
      lit "Invalid attribute value for '" ++ tag ++ lit "." ++ attribute_name ++ lit "' at "
      ++ display_location l
  | UnclosedAttributeValue l tag attribute_name =>
      lit "Unclosed attribute value for '" ++ tag ++ lit "." ++ attribute_name ++ lit "' at "
      ++ display_location l
  | UnexpectedInput l => lit "Unexpected input at " ++ display_location l
  | MissingClosingTags (tag, l) others =>
      lit "Unclosed '" ++ tag ++ lit "' tag starting at " ++ display_location l
      ++ match others with
         | [] => []
         | _ => lit "(also unclosed are: " ++ display_others 0 others ++ lit ")"
         end
  | StackLimitExceeded tag l limit =>
      lit "Stack limit (" ++ display_nat limit ++ lit ") exceeded by tag '" ++ tag ++ lit "' at "
      ++ display_location l
  | UnexpectedClosingTag tag l =>
      lit "Unexpected closing tag '" ++ tag ++ lit "' at " ++ display_location l
  | MismatchedClosingTag opening_tag opening_location closing_tag closing_location =>
      lit "Closing tag '" ++ opening_tag ++ lit "' at " ++ display_location opening_location
      ++ lit " does not match opening tag '" ++ closing_tag ++ lit "' at "
      ++ display_location closing_location                                  (* sic *)
  end.

(** Lower-case hexadecimal digits of [n] *)
Fixpoint hex_aux (fuel : nat) (n : N) (acc : str) : str :=
  match fuel with
  | O => acc
  | S fuel' =>
      let d := (n mod 16)%N in
      let c := (if d <? 10 then 48 + d else 87 + d)%N in
      if (n <? 16)%N then c :: acc else hex_aux fuel' (n / 16)%N (c :: acc)
  end.
Definition hex (n : N) : str := hex_aux (S (N.to_nat (N.log2 n))) n [].

(** [char::escape_default] of the standard library *)
Definition escape_default (c : char) : str :=
  if (c =? 9)%N then lit "\t"
  else if (c =? 13)%N then lit "\r"
  else if (c =? 10)%N then lit "\n"
  else if ((c =? 39) || (c =? 34) || (c =? 92))%N then [92%N; c]
  else if ((32 <=? c) && (c <=? 126))%N then [c]
  else lit "\u{" ++ hex c ++ lit "}".

(** [Display for IdentifierError], text/identifier.rs:78-96 *)
Definition display_identifier_error (e : identifier_error) : str :=
  match e with
  | IdEmpty => lit "Value is empty"
  | IdNotAscii => lit "Identifier contains non-ASCII characters"
  | IdForbidden c =>
      lit "Identifier contains forbidden character '" ++ escape_default c ++ lit "'"
  | IdWhitespace c =>
      lit "Identifier contains whitespace character '" ++ escape_default c ++ lit "'"
  end.

(** [Event::description], event.rs:75-87 *)
Definition event_description (e : event) : str :=
  match e with
  | Noop => lit "noop"
  | Doctype _ => lit "doctype"
  | Comment _ => lit "comment"
  | Data _ => lit "content"
  | RawData _ => lit "raw content"
  | OpeningTag _ _ => lit "opening tag"
  | ClosingTag _ => lit "closing tag"
  | SelfClosedTag _ _ => lit "self-closed tag"
  | VoidTag _ _ => lit "void tag"
  end.
Definition found (e : option event) : str :=
  match e with Some e => event_description e | None => lit "end of input" end.

(** [Display for MalformedReason], event.rs:639-656 *)
Definition display_malformed (e : malformed_reason) : str :=
  match e with
  | MUnexpectedClosingTag tag => lit "Unexpected closing tag for '" ++ id_str tag ++ lit "'"
  | MExpectedOpeningTag ev => lit "Expected opening tag, found " ++ found ev
  | MExpectedClosingTag ev tag =>
      lit "Expected closing tag for " ++ id_str tag ++ lit ", found " ++ found ev
  end.

(** [Display for InputError], template.rs:46-57 *)
Definition display_input_error (e : input_error) : str :=
  match e with
  | ParseError _ => lit "Unable to parse input into HTML5 stream"
  | LengthLimitExceeded limit =>
      lit "Input length limit (" ++ display_nat limit ++ lit ") was exceeded"
  end.

(** [Display for FileError], template.rs:105-117 (paths are Unicode strings here) *)
Definition display_file_error (e : file_error) : str :=
  let '(action, path) :=
    match e with
    | FileInput path _ => (lit "process", path)
    | FileOpen path _ => (lit "open", path)
    | FileRead path _ => (lit "read", path)
    | FileDecode path _ => (lit "decode", path)
    end in
  lit "Unable to " ++ action ++ lit " file '" ++ path ++ lit "'".

(** [Display for ClassesError], select.rs:421-431 *)
Definition display_classes_error (e : classes_error) : str :=
  match e with
  | ClassesIdentifier index _ =>
      lit "Invalid identifier for class selector at index " ++ display_nat index
  | ClassesEmpty => lit "List of selected classes is empty"
  end.

(** [Display for StaticError], select.rs:568-584 *)
Definition display_static_error (e : static_error) : str :=
  match e with
  | StaticUnrestricted => lit "Empty static selector matches everything"
  | StaticId _ => lit "Invalid identifier for id in static selector"
  | StaticTag _ => lit "Invalid identifier for tag name in static selector"
  | StaticClass index _ =>
      lit "Invalid identifier for class (index " ++ display_nat index ++ lit ") in static selector"
  end.

(** [Display for select::Error], select.rs:775-789; the same messages as those of [IdError],
    [TagError] and [ClassError], select.rs:85-93, 192-200, 310-318 *)
Definition display_selector_error (e : selector_error) : str :=
  match e with
  | SelErrId _ => lit "Invalid identifier for id selector"
  | SelErrTag _ => lit "Invalid identifier for tag name selector"
  | SelErrClass _ => lit "Invalid identifier for class selector"
  | SelErrClasses _ => lit "Invalid classes selector"
  end.

(** [Display for StreamError], event.rs:524-542 *)
Definition display_stream_error (e : stream_error) : str :=
  match e with
  | SEAssertion _ => lit "An internal invariant was not upheld"
  | SEInput _ => lit "Input error for inserted content stream"
  | SEFile _ => lit "Input error for inserted file content stream"
  | SEIdentifier _ => lit "Invalid attribute identifier"
  | SESelector _ => lit "Invalid element selector"
  | SEStaticSelector _ => lit "Invalid static str selector"
  end.

(** The error values of the library, to describe [Error::cause]. *)
Inductive any_error :=
| ErrStream (e : stream_error)
| ErrAssertion (e : malformed_reason)       (* AssertionError::Malformed, event.rs:459-466 *)
| ErrMalformed (e : malformed_reason)
| ErrInput (e : input_error)
| ErrFile (e : file_error)
| ErrParse (e : parse_error)
| ErrIdentifier (e : identifier_error)
| ErrId (e : identifier_error)              (* IdError::Identifier, select.rs:76-82 *)
| ErrTag (e : identifier_error)             (* TagError::Identifier, select.rs:183-189 *)
| ErrClass (e : identifier_error)           (* ClassError::Identifier, select.rs:301-307 *)
| ErrSelector (e : selector_error)
| ErrClasses (e : classes_error)
| ErrStatic (e : static_error)
| ErrIo (code : N)                          (* io::Error *)
| ErrUtf8 (valid : nat).                    (* str::Utf8Error *)

(** [Error::cause]: event.rs:482-486, 548-557, template.rs:38-43, 95-102, parse.rs:209-217,
    select.rs:99-103, 206-210, 324-328, 437-442, 590-597, 795-802; the default [None] for
    [IdentifierError] (identifier.rs:98-101) and [MalformedReason] (event.rs:658-661).  The
    causes of the errors of the standard library are not modelled: they are said to be none. *)
Definition cause (e : any_error) : option any_error :=
  match e with
  | ErrStream (SEAssertion e) => Some (ErrAssertion e)
  | ErrStream (SEInput e) => Some (ErrInput e)
  | ErrStream (SEFile e) => Some (ErrFile e)
  | ErrStream (SEIdentifier e) => Some (ErrIdentifier e)
  | ErrStream (SESelector e) => Some (ErrSelector e)
  | ErrStream (SEStaticSelector e) => Some (ErrStatic e)
  | ErrAssertion e => Some (ErrMalformed e)
  | ErrMalformed _ => None
  | ErrInput (ParseError e) => Some (ErrParse e)
  | ErrInput (LengthLimitExceeded _) => None
  | ErrFile (FileInput _ e) => Some (ErrInput e)
  | ErrFile (FileOpen _ e) => Some (ErrIo e)
  | ErrFile (FileRead _ e) => Some (ErrIo e)
  | ErrFile (FileDecode _ e) => Some (ErrUtf8 e)
  | ErrParse (InvalidOpeningTagIdentifier _ e) => Some (ErrIdentifier e)
  | ErrParse (InvalidClosingTagIdentifier _ e) => Some (ErrIdentifier e)
  | ErrParse (InvalidAttributeIdentifier _ e) => Some (ErrIdentifier e)
  | ErrParse _ => None
  | ErrIdentifier _ => None
  | ErrId e => Some (ErrIdentifier e)
  | ErrTag e => Some (ErrIdentifier e)
  | ErrClass e => Some (ErrIdentifier e)
  | ErrSelector (SelErrTag e) => Some (ErrIdentifier e)
  | ErrSelector (SelErrId e) => Some (ErrIdentifier e)
  | ErrSelector (SelErrClass e) => Some (ErrIdentifier e)
  | ErrSelector (SelErrClasses e) => Some (ErrClasses e)
  | ErrClasses ClassesEmpty => None
  | ErrClasses (ClassesIdentifier _ e) => Some (ErrIdentifier e)
  | ErrStatic StaticUnrestricted => None
  | ErrStatic (StaticTag e) => Some (ErrIdentifier e)
  | ErrStatic (StaticId e) => Some (ErrIdentifier e)
  | ErrStatic (StaticClass _ e) => Some (ErrIdentifier e)
  | ErrIo _ => None
  | ErrUtf8 _ => None
  end.

(** [Display] of an error: the functions above, that of [AssertionError] (event.rs:468-476),
    those of [IdError], [TagError] and [ClassError] (select.rs:85-93, 192-200, 310-318).  What
    the standard library writes for its errors is given by [io] and [utf8]. *)
Definition display_error (io : N -> str) (utf8 : nat -> str) (e : any_error) : str :=
  match e with
  | ErrStream e => display_stream_error e
  | ErrAssertion _ => lit "Malformed event stream"
  | ErrMalformed e => display_malformed e
  | ErrInput e => display_input_error e
  | ErrFile e => display_file_error e
  | ErrParse e => display_parse_error e
  | ErrIdentifier e => display_identifier_error e
  | ErrId _ => lit "Invalid identifier for id selector"
  | ErrTag _ => lit "Invalid identifier for tag name selector"
  | ErrClass _ => lit "Invalid identifier for class selector"
  | ErrSelector e => display_selector_error e
  | ErrClasses e => display_classes_error e
  | ErrStatic e => display_static_error e
  | ErrIo code => io code
  | ErrUtf8 valid => utf8 valid
  end.

(** [Error::description]: event.rs:480, 546, 660, template.rs:36, 93, parse.rs:207,
    text/identifier.rs:100, select.rs:97, 204, 322, 435, 588, 793 *)
Definition error_description (io : N -> str) (utf8 : nat -> str) (e : any_error) : str :=
  match e with
  | ErrStream _ => lit "Stream error"
  | ErrAssertion _ => lit "Assertion error"
  | ErrMalformed _ => lit "Stream validity error"
  | ErrInput _ => lit "Input error"
  | ErrFile _ => lit "File error"
  | ErrParse _ => lit "Parse error"
  | ErrIdentifier _ => lit "Invalid identifier value"
  | ErrId _ => lit "id selector error"
  | ErrTag _ => lit "tag name selector error"
  | ErrClass _ => lit "class selector error"
  | ErrSelector _ => lit "selector error"
  | ErrClasses _ => lit "classes selector error"
  | ErrStatic _ => lit "classes selector error"                            (* sic *)
  | ErrIo code => io code
  | ErrUtf8 valid => utf8 valid
  end.

(** [From<IdError>], [From<TagError>], [From<ClassError>], [From<ClassesError>] and
    [From<StaticError> for StreamError], select.rs:106-115, 213-222, 331-340, 445-452, 600-605;
    [From<InputError>], [From<FileError>], [From<IdentifierError> for StreamError],
    event.rs:560-565, 567-572, 574-579 *)
Definition into_stream_error (e : any_error) : option stream_error :=
  match e with
  | ErrId e => Some (SESelector (SelErrId e))
  | ErrTag e => Some (SESelector (SelErrTag e))
  | ErrClass e => Some (SESelector (SelErrClass e))
  | ErrClasses e => Some (SESelector (SelErrClasses e))
  | ErrStatic e => Some (SEStaticSelector e)
  | ErrInput e => Some (SEInput e)
  | ErrFile e => Some (SEFile e)
  | ErrIdentifier e => Some (SEIdentifier e)
  | _ => None
  end.
