(** Model of [src/location.rs] and [src/input.rs].  No proofs. *)
From Coq Require Import String List NArith Bool.
From Verif Require Import Text.
Import ListNotations.

(** [Location], location.rs:16-20 *)
Record location := Location { line : nat; column : nat; offset : nat }.

(** [Location::at_start], location.rs:28-30 *)
Definition at_start : location := Location 1 1 0.

(** The part of a string after its last newline (the whole string if there is
    none): [rfind('\n')] and slicing, location.rs:38-41.  Written as one left to
    right scan: [cur] is the part after the last newline seen, or [None]. *)
Fixpoint after_last_newline (s : str) (cur : str) : str :=
  match s with
  | [] => cur
  | c :: s' => if N.eqb c c_nl then after_last_newline s' s'
               else after_last_newline s' cur
  end.

(** [Location::with_consumed], location.rs:32-51 *)
Definition with_consumed (self : location) (parsed : str) : location :=
  let nl_count := length (filter (fun c => N.eqb c c_nl) parsed) in
  let last_line := after_last_newline parsed parsed in
  let last_line_chars := length last_line in
  {| offset := offset self + str_len parsed;
     line := line self + nl_count;
     column := last_line_chars + (if Nat.ltb 0 nl_count then 1 else column self) |}.

(** [Located], location.rs:7-10 *)
Record located (A : Type) := Located { loc_at : location; loc_value : A }.
Arguments Located {A} _ _.
Arguments loc_at {A} _.
Arguments loc_value {A} _.

(** [Input], input.rs:6-9 *)
Record input := Input { content : str; in_loc : location }.

(** [Input::new], input.rs:16-21 *)
Definition input_new (s : str) : input := Input s at_start.
(** [Input::is_empty], input.rs:23 *)
Definition input_is_empty (i : input) : bool :=
  match content i with [] => true | _ => false end.

(** [Input::advanced], input.rs:39-44.  [len] counts characters here and bytes in
    Rust; all callers pass the length of a prefix of [content]. *)
Definition advanced (i : input) (len : nat) : input :=
  Input (skipn len (content i)) (with_consumed (in_loc i) (firstn len (content i))).

(** [Input::end], input.rs:25-27 *)
Definition input_end (i : input) : input := advanced i (length (content i)).

(** [Input::consumed], input.rs:31-33 *)
Definition consumed (i : input) (len : nat) : str * input :=
  (firstn len (content i), advanced i len).

(** [Input::take_all] / [consume_rest], input.rs:35-37, 45-47 *)
Definition take_all (i : input) : str * input := consumed i (length (content i)).

(** [Input::take_until_str], input.rs:49-54 *)
Definition take_until_str (i : input) (e : str) : option (str * input) :=
  match find_str e (content i) with
  | None => None
  | Some len => Some (consumed i len)
  end.

(** [Input::take_until_char], input.rs:56-61 *)
Definition take_until_char (i : input) (e : char) : option (str * input) :=
  match find_char (N.eqb e) (content i) with
  | None => None
  | Some len => Some (consumed i len)
  end.

(** [str::match_indices(char)], as used in input.rs:65 *)
Fixpoint match_indices (c : char) (s : str) (pos : nat) : list nat :=
  match s with
  | [] => []
  | x :: s' => if N.eqb x c then pos :: match_indices c s' (S pos)
               else match_indices c s' (S pos)
  end.

(** the loop of [take_until_end_char], input.rs:65-70 *)
Fixpoint take_until_end_loop (i : input) (check : input -> bool) (indices : list nat)
  : option (str * input) :=
  match indices with
  | [] => None
  | index :: rest =>
      if check (advanced i index) then Some (consumed i index)
      else take_until_end_loop i check rest
  end.
(** [Input::take_until_end_char], input.rs:63-72 *)
Definition take_until_end_char (i : input) (chr : char) (check : input -> bool)
  : option (str * input) :=
  take_until_end_loop i check (match_indices chr (content i) 0).

(** [Input::take_str], input.rs:74-81 *)
Definition take_str (i : input) (pat : str) : option input :=
  if starts_with pat (content i) then Some (advanced i (length pat)) else None.

(** [Input::take_char], input.rs:83-90 *)
Definition take_char (i : input) (chr : char) : option input :=
  if starts_with [chr] (content i) then Some (advanced i 1) else None.

(** [Input::skip_whitespace], input.rs:92-96 *)
Definition skip_whitespace (i : input) : input :=
  let trimmed := trim_left (content i) in
  advanced i (length (content i) - length trimmed).

(** [TERMINATORS], input.rs:100-102 *)
Definition TERMINATORS : list char :=
  [c_space; c_tab; c_cr; c_nl; c_gt; c_lt; c_quot; c_slash; c_eq; c_apos; c_amp].

(** [Input::take_word], input.rs:98-114 *)
Definition take_word (i : input) : option (str * input) :=
  let len := match find_char (in_chars TERMINATORS) (content i) with
             | Some pos => pos
             | None => length (content i)
             end in
  match len with
  | O => None
  | _ => Some (consumed i len)
  end.

(** [Input::try_take_exact_identifier], input.rs:116-130 *)
Definition try_take_exact_identifier (i : input) (identifier : str) : option (ident * input) :=
  match take_word i with
  | None => None
  | Some (found, rest) =>
      match ident_from_str found with
      | inl found_identifier =>
          if identifier_eq (id_str found_identifier) identifier
          then Some (found_identifier, rest) else None
      | inr _ => None
      end
  end.

(** [Input::take_identifier], input.rs:132-141 *)
Definition take_identifier (i : input) : (option (ident * input)) + identifier_error :=
  match take_word i with
  | None => inl None
  | Some (word, rest) =>
      match ident_from_str word with
      | inl identifier => inl (Some (identifier, rest))
      | inr error => inr error
      end
  end.
