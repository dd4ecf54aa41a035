(** The wording of messages, as format strings with holes [{}], written as in the source. *)
From Coq Require Import String List NArith.
Import ListNotations.
From Verif Require Import Text Event Input Parse Selector Template Messages SpecText.
Open Scope N_scope.

(** [Fills args f s]: [s] is [f] with its holes filled by [args]. *)
Inductive Fills : list str -> str -> str -> Prop :=
| F_end : Fills [] [] []
| F_char c f args s : c <> 123 -> Fills args f s -> Fills args (c :: f) (c :: s)
| F_hole a f args s : Fills args f s -> Fills (a :: args) (123 :: 125 :: f) (a ++ s).

(** The hexadecimal numeral of [n], in lower case, without leading zeros. *)
Definition hex_value (c : char) : N := if c <=? 57 then c - 48 else c - 87.
Definition HexNumeral (n : N) (s : str) : Prop :=
  s <> [] /\ Forall (fun c => 48 <= c <= 57 \/ 97 <= c <= 102) s /\
  fold_left (fun v c => 16 * v + hex_value c) s 0 = n /\ (forall r, s = 48 :: r -> r = []).
(** How a character is written in messages. *)
Inductive CharText (c : char) : str -> Prop :=
| CT_tab : c = 9 -> CharText c (lit "\t")
| CT_return : c = 13 -> CharText c (lit "\r")
| CT_newline : c = 10 -> CharText c (lit "\n")
| CT_backslash : In c [34; 39; 92] -> CharText c [92; c]
| CT_plain : 32 <= c <= 126 -> ~ In c [34; 39; 92] -> CharText c [c]
| CT_other s : c < 32 \/ 126 < c -> ~ In c [9; 10; 13] -> HexNumeral c s ->
    CharText c (lit "\u{" ++ s ++ lit "}").

Definition Number (n : nat) (s : str) : Prop := Numeral (N.of_nat n) s.
(** The text of a location *)
Definition At (l : location) (s : str) : Prop :=
  exists a b c, Number (line l) a /\ Number (column l) b /\ Number (offset l) c /\
    Fills [a; b; c] (lit "line {} column {} (byte offset {})") s.

(** The names of tags in quotes, separated by commas *)
Inductive Listed : list (str * location) -> str -> Prop :=
| L_one t l s : Fills [t] (lit "'{}'") s -> Listed [(t, l)] s
| L_more t l rest r s : rest <> [] -> Listed rest r -> Fills [t; r] (lit "'{}',{}") s ->
    Listed ((t, l) :: rest) s.

Inductive KindText : option event -> string -> Prop :=
| K_noop : KindText (Some Noop) "noop"
| K_doctype c : KindText (Some (Doctype c)) "doctype"
| K_comment c : KindText (Some (Comment c)) "comment"
| K_data c : KindText (Some (Data c)) "content"
| K_raw c : KindText (Some (RawData c)) "raw content"
| K_opening t a : KindText (Some (OpeningTag t a)) "opening tag"
| K_closing t : KindText (Some (ClosingTag t)) "closing tag"
| K_self t a : KindText (Some (SelfClosedTag t a)) "self-closed tag"
| K_void t a : KindText (Some (VoidTag t a)) "void tag"
| K_end : KindText None "end of input".

(** Messages that only tell a place *)
Inductive PlaceText : parse_error -> location -> string -> Prop :=
| P_unclosed_doctype l : PlaceText (UnclosedDoctype l) l "Unclosed doctype directive at {}"
| P_unclosed_comment l : PlaceText (UnclosedComment l) l "Unclosed comment directive at {}"
| P_opening l : PlaceText (ExpectedOpeningTagIdentifier l) l "Expected an identifier for opening tag at {}"
| P_closing l : PlaceText (ExpectedClosingTagIdentifier l) l "Expected an identifier for closing tag at {}"
| P_invalid_opening l i : PlaceText (InvalidOpeningTagIdentifier l i) l "Invalid opening tag identifier at {}"
| P_invalid_closing l i : PlaceText (InvalidClosingTagIdentifier l i) l "Invalid opening tag identifier at {}" (* sic *)
| P_invalid_attribute l i : PlaceText (InvalidAttributeIdentifier l i) l "Invalid attribute identifier at {}"
| P_input l : PlaceText (UnexpectedInput l) l "Unexpected input at {}".
(** Messages that tell a name and a place *)
Inductive TagText : parse_error -> str -> location -> string -> Prop :=
| T_doctype l d : TagText (UnsupportedDoctype l d) d l "Unsupported doctype '{}' at {}"
| T_opening t l : TagText (ExpectedOpeningTagClose t l) t l "Unfinished opening tag '{}' at {}"
| T_closing t l : TagText (ExpectedClosingTagClose t l) t l "Unfinished closing tag '{}' at {}"
| T_missing t l : TagText (MissingClosingTags (t, l) []) t l "Unclosed '{}' tag starting at {}"
| T_unexpected t l : TagText (UnexpectedClosingTag t l) t l "Unexpected closing tag '{}' at {}".

(** Messages without any details *)
Inductive PlainText : any_error -> string -> Prop :=
| M_assertion e : PlainText (ErrStream (SEAssertion e)) "An internal invariant was not upheld"
| M_stream_input e : PlainText (ErrStream (SEInput e)) "Input error for inserted content stream"
| M_stream_file e : PlainText (ErrStream (SEFile e)) "Input error for inserted file content stream"
| M_stream_identifier e : PlainText (ErrStream (SEIdentifier e)) "Invalid attribute identifier"
| M_stream_selector e : PlainText (ErrStream (SESelector e)) "Invalid element selector"
| M_stream_static e : PlainText (ErrStream (SEStaticSelector e)) "Invalid static str selector"
| M_malformed e : PlainText (ErrAssertion e) "Malformed event stream"
| M_parse e : PlainText (ErrInput (ParseError e)) "Unable to parse input into HTML5 stream"
| M_empty : PlainText (ErrIdentifier IdEmpty) "Value is empty"
| M_ascii : PlainText (ErrIdentifier IdNotAscii) "Identifier contains non-ASCII characters"
| M_id e : PlainText (ErrId e) "Invalid identifier for id selector"
| M_tag e : PlainText (ErrTag e) "Invalid identifier for tag name selector"
| M_class e : PlainText (ErrClass e) "Invalid identifier for class selector"
| M_selector_id e : PlainText (ErrSelector (SelErrId e)) "Invalid identifier for id selector"
| M_selector_tag e : PlainText (ErrSelector (SelErrTag e)) "Invalid identifier for tag name selector"
| M_selector_class e : PlainText (ErrSelector (SelErrClass e)) "Invalid identifier for class selector"
| M_selector_classes e : PlainText (ErrSelector (SelErrClasses e)) "Invalid classes selector"
| M_no_classes : PlainText (ErrClasses ClassesEmpty) "List of selected classes is empty"
| M_unrestricted : PlainText (ErrStatic StaticUnrestricted) "Empty static selector matches everything"
| M_static_id e : PlainText (ErrStatic (StaticId e)) "Invalid identifier for id in static selector"
| M_static_tag e : PlainText (ErrStatic (StaticTag e)) "Invalid identifier for tag name in static selector".

(** The message of an error.  What the standard library writes for its own errors is given by
    [io] and [utf8]. *)
Inductive Worded (io : N -> str) (utf8 : nat -> str) : any_error -> str -> Prop :=
| W_plain e f : PlainText e f -> Worded io utf8 e (lit f)
| W_place e l f a s : PlaceText e l f -> At l a -> Fills [a] (lit f) s -> Worded io utf8 (ErrParse e) s
| W_tag e t l f a s : TagText e t l f -> At l a -> Fills [t; a] (lit f) s -> Worded io utf8 (ErrParse e) s
| W_value l t n a s : At l a -> Fills [t; n; a] (lit "Invalid attribute value for '{}.{}' at {}") s ->
    Worded io utf8 (ErrParse (InvalidAttributeValue l t n)) s
| W_unclosed_value l t n a s : At l a -> Fills [t; n; a] (lit "Unclosed attribute value for '{}.{}' at {}") s ->
    Worded io utf8 (ErrParse (UnclosedAttributeValue l t n)) s
| W_missing t l others a o s : others <> [] -> At l a -> Listed others o ->
    Fills [t; a; o] (lit "Unclosed '{}' tag starting at {}(also unclosed are: {})") s ->
    Worded io utf8 (ErrParse (MissingClosingTags (t, l) others)) s
| W_stack t l limit a n s : At l a -> Number limit n ->
    Fills [n; t; a] (lit "Stack limit ({}) exceeded by tag '{}' at {}") s ->
    Worded io utf8 (ErrParse (StackLimitExceeded t l limit)) s
| W_mismatch o lo c lc a b s : At lo a -> At lc b ->
    Fills [o; a; c; b] (lit "Closing tag '{}' at {} does not match opening tag '{}' at {}") s -> (* sic *)
    Worded io utf8 (ErrParse (MismatchedClosingTag o lo c lc)) s
| W_forbidden c t s : CharText c t -> Fills [t] (lit "Identifier contains forbidden character '{}'") s ->
    Worded io utf8 (ErrIdentifier (IdForbidden c)) s
| W_whitespace c t s : CharText c t -> Fills [t] (lit "Identifier contains whitespace character '{}'") s ->
    Worded io utf8 (ErrIdentifier (IdWhitespace c)) s
| W_closing t s : Fills [id_str t] (lit "Unexpected closing tag for '{}'") s ->
    Worded io utf8 (ErrMalformed (MUnexpectedClosingTag t)) s
| W_expected_opening ev k s : KindText ev k -> Fills [lit k] (lit "Expected opening tag, found {}") s ->
    Worded io utf8 (ErrMalformed (MExpectedOpeningTag ev)) s
| W_expected_closing ev t k s : KindText ev k ->
    Fills [id_str t; lit k] (lit "Expected closing tag for {}, found {}") s ->
    Worded io utf8 (ErrMalformed (MExpectedClosingTag ev t)) s
| W_length limit n s : Number limit n -> Fills [n] (lit "Input length limit ({}) was exceeded") s ->
    Worded io utf8 (ErrInput (LengthLimitExceeded limit)) s
| W_process path e s : Fills [path] (lit "Unable to process file '{}'") s ->
    Worded io utf8 (ErrFile (FileInput path e)) s
| W_open path e s : Fills [path] (lit "Unable to open file '{}'") s ->
    Worded io utf8 (ErrFile (FileOpen path e)) s
| W_read path e s : Fills [path] (lit "Unable to read file '{}'") s ->
    Worded io utf8 (ErrFile (FileRead path e)) s
| W_decode path e s : Fills [path] (lit "Unable to decode file '{}'") s ->
    Worded io utf8 (ErrFile (FileDecode path e)) s
| W_class i e n s : Number i n -> Fills [n] (lit "Invalid identifier for class selector at index {}") s ->
    Worded io utf8 (ErrClasses (ClassesIdentifier i e)) s
| W_static_class i e n s : Number i n ->
    Fills [n] (lit "Invalid identifier for class (index {}) in static selector") s ->
    Worded io utf8 (ErrStatic (StaticClass i e)) s
| W_io code : Worded io utf8 (ErrIo code) (io code)
| W_utf8 valid : Worded io utf8 (ErrUtf8 valid) (utf8 valid).
