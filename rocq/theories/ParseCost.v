(** The parser with a count of its steps.  No proofs.

    Every function is that of [Text], [Input] and [Parse] (same source lines), and also counts
    the characters of the text that it looks at, copies or counts, and one for each call.
    The result is the same ([CostProofs.from_str_same]).
    Costs of functions of Rust's standard library: searching looks at every character up to
    the match (for a string, at each position at most at as many characters as it has);
    [len()], slicing and [push] (amortized) take constant time; making an owned string copies it.
    A function that may stop early ([identifier_eq], [validate]) is counted as if it did not. *)
From Coq Require Import String List NArith Bool.
From Verif Require Import Selector Machine Template Text Event Input Parse.
Import ListNotations.

Local Open Scope nat_scope.

(** A result and the number of steps *)
Definition costed (A : Type) : Type := A * nat.
Definition ret {A} (a : A) : costed A := (a, 0).
Definition costs {A} (n : nat) (a : A) : costed A := (a, n).
Definition bind {A B} (m : costed A) (f : A -> costed B) : costed B :=
  let '(a, n) := m in let '(b, k) := f a in (b, n + k).
Notation "x <- m ; k" := (bind m (fun x => k)) (at level 100, m at next level, right associativity).

(** *** Standard library *)

(** [str::find] with a character or a set of them *)
Definition find_char_c (p : char -> bool) (s : str) : costed (option nat) :=
  costs (match find_char p s with Some n => S n | None => S (length s) end) (find_char p s).
(** [str::find] with a string *)
Definition find_str_c (pat s : str) : costed (option nat) :=
  costs (S (length pat) * match find_str pat s with Some n => S n | None => S (length s) end)
        (find_str pat s).
(** [str::starts_with] *)
Definition starts_with_c (pat s : str) : costed bool := costs (S (length pat)) (starts_with pat s).
(** [str::trim_left] *)
Definition trim_left_c (s : str) : costed str :=
  costs (S (length s - length (trim_left s))) (trim_left s).
(** [str::trim] *)
Definition trim_c (s : str) : costed str := costs (S (length s)) (trim s).

(** *** text/identifier.rs, text/encoded.rs *)

(** text/identifier.rs:9-12: two tests for ASCII and a comparison *)
Definition identifier_eq_c (left right : str) : costed bool :=
  costs (S (2 * (length left + length right))) (identifier_eq left right).
(** text/identifier.rs:126-134: three searches and a copy *)
Definition ident_from_str_c (value : str) : costed (ident + identifier_error) :=
  costs (S (4 * length value)) (ident_from_str value).
(** text/encoded.rs:97-101 *)
Definition enc_from_raw_c (v : str) : costed encoded := costs (S (length v)) (enc_from_raw v).

(** *** location.rs *)

(** location.rs:32-51: counting newlines, searching the last one, counting the characters
    behind it *)
Definition with_consumed_c (self : location) (parsed : str) : costed location :=
  costs (S (3 * length parsed)) (with_consumed self parsed).

(** *** input.rs *)

(** input.rs:39-44 *)
Definition advanced_c (i : input) (len : nat) : costed input :=
  l <- with_consumed_c (in_loc i) (firstn len (content i));
  costs 1 (Input (skipn len (content i)) l).
(** input.rs:25-27 *)
Definition input_end_c (i : input) : costed input := advanced_c i (length (content i)).
(** input.rs:31-33 *)
Definition consumed_c (i : input) (len : nat) : costed (str * input) :=
  r <- advanced_c i len; ret (firstn len (content i), r).
(** input.rs:35-37 *)
Definition take_all_c (i : input) : costed (str * input) := consumed_c i (length (content i)).
(** input.rs:49-54 *)
Definition take_until_str_c (i : input) (e : str) : costed (option (str * input)) :=
  x <- find_str_c e (content i);
  match x with
  | None => ret None
  | Some len => r <- consumed_c i len; ret (Some r)
  end.
(** input.rs:56-61 *)
Definition take_until_char_c (i : input) (e : char) : costed (option (str * input)) :=
  x <- find_char_c (N.eqb e) (content i);
  match x with
  | None => ret None
  | Some len => r <- consumed_c i len; ret (Some r)
  end.
(** input.rs:65-70 *)
Fixpoint take_until_end_loop_c (i : input) (check : input -> costed bool) (indices : list nat)
  : costed (option (str * input)) :=
  match indices with
  | [] => ret None
  | index :: rest =>
      r <- advanced_c i index;
      b <- check r;
      if b then r <- consumed_c i index; ret (Some r)
      else take_until_end_loop_c i check rest
  end.
(** input.rs:63-72: [match_indices] is lazy: it has looked at the text up to the match. *)
Definition take_until_end_char_c (i : input) (chr : char) (check : input -> costed bool)
  : costed (option (str * input)) :=
  r <- take_until_end_loop_c i check (match_indices chr (content i) 0);
  costs (match r with Some (d, _) => S (length d) | None => S (length (content i)) end) r.
(** input.rs:74-81 *)
Definition take_str_c (i : input) (pat : str) : costed (option input) :=
  b <- starts_with_c pat (content i);
  if b then r <- advanced_c i (length pat); ret (Some r) else ret None.
(** input.rs:83-90 *)
Definition take_char_c (i : input) (chr : char) : costed (option input) :=
  b <- starts_with_c [chr] (content i);
  if b then r <- advanced_c i 1; ret (Some r) else ret None.
(** input.rs:92-96 *)
Definition skip_whitespace_c (i : input) : costed input :=
  trimmed <- trim_left_c (content i);
  advanced_c i (length (content i) - length trimmed).
(** input.rs:98-114 *)
Definition take_word_c (i : input) : costed (option (str * input)) :=
  x <- find_char_c (in_chars TERMINATORS) (content i);
  let len := match x with Some pos => pos | None => length (content i) end in
  match len with
  | O => ret None
  | _ => r <- consumed_c i len; ret (Some r)
  end.
(** input.rs:116-130 *)
Definition try_take_exact_identifier_c (i : input) (identifier : str) : costed (option (ident * input)) :=
  x <- take_word_c i;
  match x with
  | None => ret None
  | Some (found, rest) =>
      y <- ident_from_str_c found;
      match y with
      | inl found_identifier =>
          b <- identifier_eq_c (id_str found_identifier) identifier;
          if b then ret (Some (found_identifier, rest)) else ret None
      | inr _ => ret None
      end
  end.
(** input.rs:132-141 *)
Definition take_identifier_c (i : input) : costed ((option (ident * input)) + identifier_error) :=
  x <- take_word_c i;
  match x with
  | None => ret (inl None)
  | Some (word, rest) =>
      y <- ident_from_str_c word;
      match y with
      | inl identifier => ret (inl (Some (identifier, rest)))
      | inr error => ret (inr error)
      end
  end.

(** *** parse.rs *)

(** parse.rs:665-695: a loop over [names] that stops at the first that equals
    [tag]; counted as if it did not *)
Definition names_cost (tag : str) (names : list str) : nat :=
  S (list_sum (map (fun name => snd (identifier_eq_c tag name)) names)).
(** parse.rs:681-695 *)
Definition is_void_tag_c (tag : str) : costed bool :=
  costs (names_cost tag VOID_TAGS) (is_void_tag tag).
(** parse.rs:665-679 *)
Definition mode_for_tag_c (tag : str) (self_close : bool) : costed mode :=
  costs (names_cost tag RAW_TAGS) (mode_for_tag tag self_close).

(** parse.rs:444-459 *)
Definition try_parse_data_c (i : input) : costed (option (presult parsed)) :=
  x <- take_until_char_c i c_lt;
  y <- match x with Some r => ret r | None => take_all_c i end;
  let '(d, rest) := y in
  match d with
  | [] => ret None
  | _ => v <- enc_from_raw_c d;
         ret (Some (POk (Parsed (Located (in_loc i) (Data v)) ModeData rest)))
  end.

(** parse.rs:461-480 *)
Definition try_parse_comment_c (i : input) : costed (option (presult parsed)) :=
  x <- take_str_c i (lit "<!--");
  match x with
  | None => ret None
  | Some rest =>
      y <- take_until_str_c rest (lit "-->");
      match y with
      | Some (content, rest) =>
          z <- take_str_c rest (lit "-->");
          match z with
          | Some rest =>
              v <- enc_from_raw_c content;
              ret (Some (POk (Parsed (Located (in_loc i) (Comment v)) ModeData rest)))
          | None => ret (Some PPanic)
          end
      | None => ret (Some (PErr (UnclosedComment (in_loc i))))
      end
  end.

(** parse.rs:482-511 *)
Definition try_parse_doctype_c (i : input) : costed (option (presult parsed)) :=
  x <- take_str_c i (lit "<!");
  match x with
  | None => ret None
  | Some rest =>
      rest <- skip_whitespace_c rest;
      y <- try_take_exact_identifier_c rest (lit "doctype");
      match y with
      | None => ret None
      | Some (_, rest) =>
          rest <- skip_whitespace_c rest;
          z <- take_until_char_c rest c_gt;
          match z with
          | None => ret (Some (PErr (UnclosedDoctype (in_loc i))))
          | Some (content, rest) =>
              content <- trim_c content;
              r <- take_char_c rest c_gt;
              match r with
              | None => ret (Some PPanic)
              | Some rest =>
                  b <- identifier_eq_c content (lit "html");
                  if negb b
                  then costs (S (length content)) (Some (PErr (UnsupportedDoctype (in_loc i) content)))
                  else v <- enc_from_raw_c content;
                       ret (Some (POk (Parsed (Located (in_loc i) (Doctype v)) ModeData rest)))
              end
          end
      end
  end.

(** parse.rs:513-546 *)
Definition try_parse_tag_close_c (i : input) : costed (option (presult parsed)) :=
  x <- take_char_c i c_lt;
  match x with
  | None => ret None
  | Some rest =>
      rest <- skip_whitespace_c rest;
      y <- take_char_c rest c_slash;
      match y with
      | None => ret None
      | Some rest =>
          rest <- skip_whitespace_c rest;
          z <- take_identifier_c rest;
          match z with
          | inl None => ret (Some (PErr (ExpectedClosingTagIdentifier (in_loc rest))))
          | inr error => ret (Some (PErr (InvalidClosingTagIdentifier (in_loc rest) error)))
          | inl (Some (identifier, rest)) =>
              rest <- skip_whitespace_c rest;
              r <- take_char_c rest c_gt;
              match r with
              | None => costs (S (length (id_str identifier)))
                          (Some (PErr (ExpectedClosingTagClose (id_str identifier) (in_loc rest))))
              | Some rest =>
                  ret (Some (POk (Parsed (Located (in_loc i) (ClosingTag identifier)) ModeData rest)))
              end
          end
      end
  end.

(** parse.rs:553-595: the errors about values copy both names *)
Definition try_parse_attribute_c (tag : str) (i : input) : costed (presult (option (attribute * input))) :=
  x <- take_identifier_c i;
  match x with
  | inr error => ret (PErr (InvalidAttributeIdentifier (in_loc i) error))
  | inl None => ret (POk None)
  | inl (Some (name, rest)) =>
      rest <- skip_whitespace_c rest;
      y <- take_char_c rest c_eq;
      match y with
      | None => ret (POk (Some (Attribute name None, rest)))
      | Some rest =>
          rest <- skip_whitespace_c rest;
          let value_start := in_loc rest in
          z <- take_char_c rest c_quot;
          match z with
          | None => costs (S (length tag + length (id_str name)))
                      (PErr (InvalidAttributeValue value_start tag (id_str name)))
          | Some rest =>
              rest <- skip_whitespace_c rest;
              r <- take_until_char_c rest c_quot;
              match r with
              | None => costs (S (length tag + length (id_str name)))
                          (PErr (UnclosedAttributeValue value_start tag (id_str name)))
              | Some (v, rest) =>
                  q <- take_char_c rest c_quot;
                  match q with
                  | None => ret PPanic
                  | Some rest =>
                      v <- enc_from_raw_c v;
                      ret (POk (Some (Attribute name (Some v), rest)))
                  end
              end
          end
      end
  end.

(** parse.rs:603-611 *)
Fixpoint parse_attributes_loop_c (fuel : nat) (tag : str) (rest : input) (acc : attributes)
  : costed (presult (attributes * input)) :=
  match fuel with
  | O => ret PFuel
  | S fuel' =>
      if input_is_empty rest then costs 1 (POk (acc, rest))
      else x <- try_parse_attribute_c tag rest;
           match x with
           | PErr e => ret (PErr e)
           | PPanic => ret PPanic
           | PFuel => ret PFuel
           | POk (Some (a, new_rest)) =>
               rest <- skip_whitespace_c new_rest;
               parse_attributes_loop_c fuel' tag rest (acc ++ [a])
           | POk None => ret (POk (acc, rest))
           end
  end.
(** parse.rs:597-614 *)
Definition parse_attributes_c (tag : str) (i : input) : costed (presult (attributes * input)) :=
  rest <- skip_whitespace_c i;
  parse_attributes_loop_c (S (length (content i))) tag rest [].

(** parse.rs:616-663 *)
Definition try_parse_tag_open_c (i : input) : costed (option (presult parsed)) :=
  x <- take_char_c i c_lt;
  match x with
  | None => ret None
  | Some rest =>
      rest <- skip_whitespace_c rest;
      y <- take_identifier_c rest;
      match y with
      | inl None => ret (Some (PErr (ExpectedOpeningTagIdentifier (in_loc rest))))
      | inr error => ret (Some (PErr (InvalidOpeningTagIdentifier (in_loc rest) error)))
      | inl (Some (tag, rest)) =>
          rest <- skip_whitespace_c rest;
          z <- parse_attributes_c (id_str tag) rest;
          match z with
          | PErr e => ret (Some (PErr e))
          | PPanic => ret (Some PPanic)
          | PFuel => ret (Some PFuel)
          | POk (attrs, rest) =>
              rest <- skip_whitespace_c rest;
              r <- take_char_c rest c_slash;
              q <- match r with
                   | Some rest => rest <- skip_whitespace_c rest; ret (true, rest)
                   | None => ret (false, rest)
                   end;
              let '(self_close, rest) := q in
              r <- take_char_c rest c_gt;
              match r with
              | None => costs (S (length (id_str tag)))
                          (Some (PErr (ExpectedOpeningTagClose (id_str tag) (in_loc rest))))
              | Some rest =>
                  m <- mode_for_tag_c (id_str tag) self_close;
                  void <- is_void_tag_c (id_str tag);
                  let ev := if (void : bool) then VoidTag tag attrs
                            else if (self_close : bool) then SelfClosedTag tag attrs
                            else OpeningTag tag attrs in
                  ret (Some (POk (Parsed (Located (in_loc i) ev) m rest)))
              end
          end
      end
  end.

(** [Option::or_else] *)
Definition or_else_c {A} (a : costed (option A)) (b : unit -> costed (option A)) : costed (option A) :=
  x <- a;
  match x with Some x => ret (Some x) | None => b tt end.

(** parse.rs:407-409 *)
Definition try_parse_tag_c (i : input) : costed (option (presult parsed)) :=
  or_else_c (try_parse_tag_close_c i) (fun _ => try_parse_tag_open_c i).

(** parse.rs:411-417 *)
Definition parse_data_mode_c (i : input) : costed (presult parsed) :=
  x <- or_else_c (try_parse_comment_c i) (fun _ =>
       or_else_c (try_parse_doctype_c i) (fun _ =>
       or_else_c (try_parse_tag_c i) (fun _ =>
       try_parse_data_c i)));
  ret match x with
      | Some r => r
      | None => PErr (UnexpectedInput (in_loc i))
      end.

(** parse.rs:429-434 *)
Definition raw_data_end_c (searched : str) (rest : input) : costed bool :=
  x <- try_parse_tag_close_c rest;
  match x with
  | Some (POk p) =>
      match loc_value (p_event p) with
      | ClosingTag tag =>
          _ <- identifier_eq_c (id_str tag) searched;
          ret (is_closing_tag_for_str (loc_value (p_event p)) searched)
      | _ => ret (is_closing_tag_for_str (loc_value (p_event p)) searched)
      end
  | _ => ret false
  end.

(** parse.rs:426-442 *)
Definition parse_raw_data_c (i : input) (searched : str) : costed (presult parsed) :=
  x <- take_until_end_char_c i c_lt (raw_data_end_c searched);
  y <- match x with Some r => ret r | None => take_all_c i end;
  let '(content, rest) := y in
  v <- enc_from_raw_c content;
  ret (POk (Parsed (Located (in_loc i) (RawData v)) ModeData rest)).

(** parse.rs:419-424 *)
Definition parse_c (m : mode) (i : input) : costed (presult parsed) :=
  match m with
  | ModeData => parse_data_mode_c i
  | ModeRawData tag => parse_raw_data_c i tag
  end.

(** parse.rs:402-404 *)
Definition finalize_c (it : iter) : costed iter :=
  r <- input_end_c (it_rest it); ret (Iter r (it_mode it) (it_stack it) (it_options it)).

(** parse.rs:312-321: copying the names of the open elements *)
Definition stack_cost (stack : list (located ident)) : nat :=
  list_sum (map (fun e => S (length (id_str (loc_value e)))) stack).

(** parse.rs:348-373 *)
Definition iter_next_close_c (it : iter) (loc : location) (ev : event) (new_mode : mode)
    (new_rest : input) : costed (option (presult event) * iter) :=
  let update it := Iter new_rest new_mode (it_stack it) (it_options it) in
  match ev with
  | ClosingTag tag =>
      match it_stack it with
      | [] => it' <- finalize_c it;
              costs (S (length (id_str tag))) (Some (PErr (UnexpectedClosingTag (id_str tag) loc)), it')
      | entry :: stack =>
          let it := Iter (it_rest it) (it_mode it) stack (it_options it) in
          b <- identifier_eq_c (id_str tag) (id_str (loc_value entry));
          if negb b
          then it' <- finalize_c it;
               costs (S (length (id_str tag) + length (id_str (loc_value entry))))
                 (Some (PErr (MismatchedClosingTag (id_str (loc_value entry)) (loc_at entry)
                                                   (id_str tag) loc)), it')
          else ret (Some (POk ev), update it)
      end
  | _ => ret (Some (POk ev), update it)
  end.

(** parse.rs:309-374 *)
Definition iter_next_c (it : iter) : costed (option (presult event) * iter) :=
  if input_is_empty (it_rest it)
  then match it_stack it with
       | entry :: stack =>
           costs (S (stack_cost (entry :: stack)))
             (Some (PErr (MissingClosingTags (stack_entry entry) (map stack_entry (rev stack)))),
              Iter (it_rest it) (it_mode it) stack (it_options it))
       | [] => costs 1 (None, it)
       end
  else x <- parse_c (it_mode it) (it_rest it);
       match x with
       | PErr error => it' <- finalize_c it; ret (Some (PErr error), it')
       | PPanic => ret (Some PPanic, it)
       | PFuel => ret (Some PFuel, it)
       | POk (Parsed (Located loc ev) new_mode new_rest) =>
           match ev with
           | OpeningTag tag _ =>
               let limit_hit := match max_stack_depth (it_options it) with
                                | Some limit => Nat.eqb limit (length (it_stack it))
                                | None => false
                                end in
               if limit_hit
               then it' <- finalize_c it;
                    costs (S (length (id_str tag)))
                      (Some (PErr (StackLimitExceeded (id_str tag) loc
                        match max_stack_depth (it_options it) with
                        | Some limit => limit | None => 0 end)), it')
               else _ <- costs (S (length (id_str tag))) tt;
                    iter_next_close_c
                      (Iter (it_rest it) (it_mode it) (Located loc tag :: it_stack it)
                            (it_options it)) loc ev new_mode new_rest
           | _ => iter_next_close_c it loc ev new_mode new_rest
           end
       end.

(** template.rs:222-225 *)
Fixpoint collect_c (fuel : nat) (it : iter) (acc : list event) : costed (presult (list event)) :=
  match fuel with
  | O => ret PFuel
  | S fuel' =>
      x <- iter_next_c it;
      match x with
      | (None, _) => costs 1 (POk (rev acc))
      | (Some (POk ev), it') => _ <- costs 1 tt; collect_c fuel' it' (ev :: acc)
      | (Some (PErr e), _) => costs 1 (PErr e)
      | (Some PPanic, _) => ret PPanic
      | (Some PFuel, _) => ret PFuel
      end
  end.
(** template.rs:222-225 *)
Definition parse_events_c (s : str) (o : options) : costed (presult (list event)) :=
  collect_c (2 * length s + 2) (iter_new s o) [].

(** [Template::from_str], template.rs:216-232 *)
Definition from_str_c (s : str) (o : options) : costed (tresult input_error) :=
  let parsed := x <- parse_events_c s o;
                ret match x with
                    | POk events => TOk events
                    | PErr e => TErr (ParseError e)
                    | PPanic => TPanic
                    | PFuel => TFuel
                    end in
  match max_input_len o with
  | Some limit => if Nat.ltb limit (str_len s) then costs 1 (TErr (LengthLimitExceeded limit)) else parsed
  | None => parsed
  end.
