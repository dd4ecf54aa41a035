(** Model of [src/parse.rs].  No proofs. *)
From Coq Require Import String List NArith Bool.
From Verif Require Import Text Event Input.
Import ListNotations.

(** [Options], parse.rs:35-40 *)
Record options := Options { max_stack_depth : option nat; max_input_len : option nat }.
(** [Options::default], parse.rs:69-77 *)
Definition default_options : options := Options None None.

(** the methods [max_stack_depth], [no_max_stack_depth], [max_input_len],
    [no_max_input_len] of [Options], parse.rs:45-66, as a list of calls *)
Inductive setting :=
| MaxStackDepth (max_depth : nat)
| NoMaxStackDepth
| MaxInputLen (max_len : nat)
| NoMaxInputLen.
Definition set_option (o : options) (x : setting) : options :=
  match x with
  | MaxStackDepth d => Options (Some d) (max_input_len o)
  | NoMaxStackDepth => Options None (max_input_len o)
  | MaxInputLen n => Options (max_stack_depth o) (Some n)
  | NoMaxInputLen => Options (max_stack_depth o) None
  end.
(** a chain of such calls *)
Definition set_options (o : options) (xs : list setting) : options := fold_left set_option xs o.

(** [parse::Error], parse.rs:81-203 *)
Inductive parse_error :=
| UnsupportedDoctype (location : location) (doctype : str)
| UnclosedDoctype (location : location)
| UnclosedComment (location : location)
| ExpectedOpeningTagClose (tag : str) (location : location)
| ExpectedClosingTagClose (tag : str) (location : location)
| ExpectedOpeningTagIdentifier (location : location)
| InvalidOpeningTagIdentifier (location : location) (error : identifier_error)
| ExpectedClosingTagIdentifier (location : location)
| InvalidClosingTagIdentifier (location : location) (error : identifier_error)
| InvalidAttributeIdentifier (location : location) (error : identifier_error)
| InvalidAttributeValue (location : location) (tag attribute_name : str)
| UnclosedAttributeValue (location : location) (tag attribute_name : str)
| UnexpectedInput (location : location)
| MissingClosingTags (inner : str * location) (others : list (str * location))
| StackLimitExceeded (tag : str) (location : location) (limit : nat)
| UnexpectedClosingTag (tag : str) (location : location)
| MismatchedClosingTag (opening_tag : str) (opening_location : location)
                       (closing_tag : str) (closing_location : location).

(** [Result<A, parse::Error>] extended with explicit values for a panic
    ([expect]) and for running out of fuel in a modelled loop. *)
Inductive presult (A : Type) :=
| POk (a : A)
| PErr (e : parse_error)
| PPanic
| PFuel.
Arguments POk {A} a.
Arguments PErr {A} e.
Arguments PPanic {A}.
Arguments PFuel {A}.

(** [Mode], parse.rs:378-381 *)
Inductive mode := ModeData | ModeRawData (tag : str).

(** [Parsed], parse.rs:383-387 *)
Record parsed := Parsed { p_event : located event; p_next_mode : mode; p_rest : input }.

(** [is_void_tag], parse.rs:681-695 *)
Definition VOID_TAGS : list str :=
  map lit ["area"; "base"; "br"; "col"; "embed"; "hr"; "img"; "input"; "keygen"; "link";
           "menuitem"; "meta"; "param"; "source"; "track"; "wbr"]%string.
Definition is_void_tag (tag : str) : bool :=
  existsb (fun void_tag => identifier_eq tag void_tag) VOID_TAGS.

(** [mode_for_tag], parse.rs:665-679 *)
Definition RAW_TAGS : list str := map lit ["script"; "style"; "title"; "textarea"]%string.
Definition mode_for_tag (tag : str) (self_close : bool) : mode :=
  if negb self_close
  then match find (fun raw_tag => identifier_eq tag raw_tag) RAW_TAGS with
       | Some raw_tag => ModeRawData raw_tag
       | None => ModeData
       end
  else ModeData.

(** [try_parse_data], parse.rs:444-459 *)
Definition try_parse_data (i : input) : option (presult parsed) :=
  let '(d, rest) := match take_until_char i c_lt with
                    | Some r => r
                    | None => take_all i
                    end in
  match d with
  | [] => None
  | _ => Some (POk (Parsed (Located (in_loc i) (Data (enc_from_raw d))) ModeData rest))
  end.

(** [try_parse_comment], parse.rs:461-480 *)
Definition try_parse_comment (i : input) : option (presult parsed) :=
  match take_str i (lit "<!--") with
  | None => None
  | Some rest =>
      match take_until_str rest (lit "-->") with
      | Some (content, rest) =>
          match take_str rest (lit "-->") with
          | Some rest =>
              Some (POk (Parsed (Located (in_loc i) (Comment (enc_from_raw content)))
                                ModeData rest))
          | None => Some PPanic                         (* expect("comment end") *)
          end
      | None => Some (PErr (UnclosedComment (in_loc i)))
      end
  end.

(** [try_parse_doctype], parse.rs:482-511 *)
Definition try_parse_doctype (i : input) : option (presult parsed) :=
  match take_str i (lit "<!") with
  | None => None
  | Some rest =>
      let rest := skip_whitespace rest in
      match try_take_exact_identifier rest (lit "doctype") with
      | None => None
      | Some (_, rest) =>
          let rest := skip_whitespace rest in
          match take_until_char rest c_gt with
          | None => Some (PErr (UnclosedDoctype (in_loc i)))
          | Some (content, rest) =>
              let content := trim content in
              match take_char rest c_gt with
              | None => Some PPanic                     (* expect("close type") *)
              | Some rest =>
                  if negb (identifier_eq content (lit "html"))
                  then Some (PErr (UnsupportedDoctype (in_loc i) content))
                  else Some (POk (Parsed (Located (in_loc i)
                                            (Doctype (enc_from_raw content)))
                                         ModeData rest))
              end
          end
      end
  end.

(** [try_parse_tag_close], parse.rs:513-546 *)
Definition try_parse_tag_close (i : input) : option (presult parsed) :=
  match take_char i c_lt with
  | None => None
  | Some rest =>
      let rest := skip_whitespace rest in
      match take_char rest c_slash with
      | None => None
      | Some rest =>
          let rest := skip_whitespace rest in
          match take_identifier rest with
          | inl None => Some (PErr (ExpectedClosingTagIdentifier (in_loc rest)))
          | inr error => Some (PErr (InvalidClosingTagIdentifier (in_loc rest) error))
          | inl (Some (identifier, rest)) =>
              let rest := skip_whitespace rest in
              match take_char rest c_gt with
              | None => Some (PErr (ExpectedClosingTagClose (id_str identifier) (in_loc rest)))
              | Some rest =>
                  Some (POk (Parsed (Located (in_loc i) (ClosingTag identifier))
                                    ModeData rest))
              end
          end
      end
  end.

(** [try_parse_attribute], parse.rs:553-595 *)
Definition try_parse_attribute (tag : str) (i : input) : presult (option (attribute * input)) :=
  match take_identifier i with
  | inr error => PErr (InvalidAttributeIdentifier (in_loc i) error)
  | inl None => POk None
  | inl (Some (name, rest)) =>
      let rest := skip_whitespace rest in
      match take_char rest c_eq with
      | None => POk (Some (Attribute name None, rest))
      | Some rest =>
          let rest := skip_whitespace rest in
          let value_start := in_loc rest in
          match take_char rest c_quot with
          | None => PErr (InvalidAttributeValue value_start tag (id_str name))
          | Some rest =>
              let rest := skip_whitespace rest in
              match take_until_char rest c_quot with
              | None => PErr (UnclosedAttributeValue value_start tag (id_str name))
              | Some (v, rest) =>
                  match take_char rest c_quot with
                  | None => PPanic                      (* expect("end marker") *)
                  | Some rest => POk (Some (Attribute name (Some (enc_from_raw v)), rest))
                  end
              end
          end
      end
  end.

(** the loop ['search] of [parse_attributes], parse.rs:603-611 *)
Fixpoint parse_attributes_loop (fuel : nat) (tag : str) (rest : input) (acc : attributes)
  : presult (attributes * input) :=
  match fuel with
  | O => PFuel
  | S fuel' =>
      if input_is_empty rest then POk (acc, rest)
      else match try_parse_attribute tag rest with
           | PErr e => PErr e
           | PPanic => PPanic
           | PFuel => PFuel
           | POk (Some (a, new_rest)) =>
               parse_attributes_loop fuel' tag (skip_whitespace new_rest) (acc ++ [a])
           | POk None => POk (acc, rest)
           end
  end.
(** [parse_attributes], parse.rs:597-614 *)
Definition parse_attributes (tag : str) (i : input) : presult (attributes * input) :=
  parse_attributes_loop (S (length (content i))) tag (skip_whitespace i) [].

(** [try_parse_tag_open], parse.rs:616-663 *)
Definition try_parse_tag_open (i : input) : option (presult parsed) :=
  match take_char i c_lt with
  | None => None
  | Some rest =>
      let rest := skip_whitespace rest in
      match take_identifier rest with
      | inl None => Some (PErr (ExpectedOpeningTagIdentifier (in_loc rest)))
      | inr error => Some (PErr (InvalidOpeningTagIdentifier (in_loc rest) error))
      | inl (Some (tag, rest)) =>
          let rest := skip_whitespace rest in
          match parse_attributes (id_str tag) rest with
          | PErr e => Some (PErr e)
          | PPanic => Some PPanic
          | PFuel => Some PFuel
          | POk (attrs, rest) =>
              let rest := skip_whitespace rest in
              let '(self_close, rest) :=
                match take_char rest c_slash with
                | Some rest => (true, skip_whitespace rest)
                | None => (false, rest)
                end in
              match take_char rest c_gt with
              | None => Some (PErr (ExpectedOpeningTagClose (id_str tag) (in_loc rest)))
              | Some rest =>
                  let ev := if is_void_tag (id_str tag) then VoidTag tag attrs
                            else if self_close then SelfClosedTag tag attrs
                            else OpeningTag tag attrs in
                  Some (POk (Parsed (Located (in_loc i) ev)
                                    (mode_for_tag (id_str tag) self_close) rest))
              end
          end
      end
  end.

(** [Option::or_else] *)
Definition or_else {A} (a : option A) (b : unit -> option A) : option A :=
  match a with Some x => Some x | None => b tt end.

(** [try_parse_tag], parse.rs:407-409 *)
Definition try_parse_tag (i : input) : option (presult parsed) :=
  or_else (try_parse_tag_close i) (fun _ => try_parse_tag_open i).

(** [parse_data_mode], parse.rs:411-417 *)
Definition parse_data_mode (i : input) : presult parsed :=
  match or_else (try_parse_comment i) (fun _ =>
        or_else (try_parse_doctype i) (fun _ =>
        or_else (try_parse_tag i) (fun _ =>
        try_parse_data i))) with
  | Some r => r
  | None => PErr (UnexpectedInput (in_loc i))
  end.

(** the closure of [parse_raw_data], parse.rs:429-434 *)
Definition raw_data_end (searched : str) (rest : input) : bool :=
  match try_parse_tag_close rest with
  | Some (POk p) => is_closing_tag_for_str (loc_value (p_event p)) searched
  | _ => false
  end.

(** [parse_raw_data], parse.rs:426-442 *)
Definition parse_raw_data (i : input) (searched : str) : presult parsed :=
  let '(content, rest) :=
    match take_until_end_char i c_lt (raw_data_end searched) with
    | Some r => r
    | None => take_all i
    end in
  POk (Parsed (Located (in_loc i) (RawData (enc_from_raw content))) ModeData rest).

(** [parse], parse.rs:419-424 *)
Definition parse (m : mode) (i : input) : presult parsed :=
  match m with
  | ModeData => parse_data_mode i
  | ModeRawData tag => parse_raw_data i tag
  end.

(** [Iter], parse.rs:298-303.  The stack is kept with its top first (Rust: last). *)
Record iter := Iter { it_rest : input; it_mode : mode; it_stack : list (located ident);
                      it_options : options }.

(** [Iter::new], parse.rs:393-400 *)
Definition iter_new (s : str) (o : options) : iter := Iter (input_new s) ModeData [] o.

(** [Iter::finalize], parse.rs:402-404 *)
Definition finalize (it : iter) : iter :=
  Iter (input_end (it_rest it)) (it_mode it) (it_stack it) (it_options it).

Definition stack_entry (e : located ident) : str * location :=
  (id_str (loc_value e), loc_at e).

(** second half of [Iter::next], parse.rs:348-373: closing tags and the update *)
Definition iter_next_close (it : iter) (loc : location) (ev : event) (new_mode : mode)
    (new_rest : input) : option (presult event) * iter :=
  let update it := Iter new_rest new_mode (it_stack it) (it_options it) in
  match ev with
  | ClosingTag tag =>
      match it_stack it with
      | [] => (Some (PErr (UnexpectedClosingTag (id_str tag) loc)), finalize it)
      | entry :: stack =>
          let it := Iter (it_rest it) (it_mode it) stack (it_options it) in
          if negb (ident_eqb tag (loc_value entry))
          then (Some (PErr (MismatchedClosingTag (id_str (loc_value entry)) (loc_at entry)
                                                 (id_str tag) loc)), finalize it)
          else (Some (POk ev), update it)
      end
  | _ => (Some (POk ev), update it)
  end.

(** [Iter::next], parse.rs:309-374 *)
Definition iter_next (it : iter) : option (presult event) * iter :=
  if input_is_empty (it_rest it)
  then match it_stack it with
       | entry :: stack =>
           (Some (PErr (MissingClosingTags (stack_entry entry)
                                           (map stack_entry (rev stack)))),
            Iter (it_rest it) (it_mode it) stack (it_options it))
       | [] => (None, it)
       end
  else match parse (it_mode it) (it_rest it) with
       | PErr error => (Some (PErr error), finalize it)
       | PPanic => (Some PPanic, it)
       | PFuel => (Some PFuel, it)
       | POk (Parsed (Located loc ev) new_mode new_rest) =>
           match ev with
           | OpeningTag tag _ =>
               let limit_hit := match max_stack_depth (it_options it) with
                                | Some limit => Nat.eqb limit (length (it_stack it))
                                | None => false
                                end in
               if limit_hit
               then (Some (PErr (StackLimitExceeded (id_str tag) loc
                        match max_stack_depth (it_options it) with
                        | Some limit => limit | None => 0 end)), finalize it)
               else iter_next_close
                      (Iter (it_rest it) (it_mode it) (Located loc tag :: it_stack it)
                            (it_options it)) loc ev new_mode new_rest
           | _ => iter_next_close it loc ev new_mode new_rest
           end
       end.

(** [collect::<Result<Vec<_>, _>>()] over the iterator, template.rs:222-225: stops
    at the first error *)
Fixpoint collect (fuel : nat) (it : iter) (acc : list event) : presult (list event) :=
  match fuel with
  | O => PFuel
  | S fuel' =>
      match iter_next it with
      | (None, _) => POk (rev acc)
      | (Some (POk ev), it') => collect fuel' it' (ev :: acc)
      | (Some (PErr e), _) => PErr e
      | (Some PPanic, _) => PPanic
      | (Some PFuel, _) => PFuel
      end
  end.

(** [Iter::new(input, options).collect()].  Fuel: every step consumes a character
    except the one for empty raw data, which is followed by a closing tag. *)
Definition parse_events (s : str) (o : options) : presult (list event) :=
  collect (2 * length s + 2) (iter_new s o) [].
