(** Model of [src/text/*.rs]: strings, identifiers, encoded text.  No proofs.

    A Rust string ([&str], [String], [StrTendril]) is a list of Unicode code
    points.  Rust strings contain only scalar values; nothing below depends on
    that, so the model does not restrict the code points.  *)
From Coq Require Import Ascii String List NArith Bool ZArith.
Import ListNotations.
Open Scope N_scope.

Definition char := N.
Definition str := list char.

(** Only used to write string literals in the model. *)
Definition lit (s : string) : str := map N_of_ascii (list_ascii_of_string s).
Arguments lit s%string_scope.

(** Characters with a role in the code. *)
Definition c_tab : char := 9.
Definition c_nl : char := 10.
Definition c_cr : char := 13.
Definition c_space : char := 32.
Definition c_quot : char := 34.   (* double quote *)
Definition c_hash : char := 35.
Definition c_amp : char := 38.
Definition c_apos : char := 39.
Definition c_comma : char := 44.
Definition c_minus : char := 45.
Definition c_dot : char := 46.
Definition c_slash : char := 47.
Definition c_semi : char := 59.
Definition c_lt : char := 60.
Definition c_eq : char := 61.
Definition c_gt : char := 62.

(** ** Rust standard library functions on strings *)

(** [char::len_utf8] *)
Definition len_utf8 (c : char) : nat :=
  if c <? 128 then 1%nat
  else if c <? 2048 then 2%nat
  else if c <? 65536 then 3%nat
  else 4%nat.

(** [str::len]: number of UTF-8 bytes *)
Fixpoint str_len (s : str) : nat :=
  match s with
  | [] => 0%nat
  | c :: s' => (len_utf8 c + str_len s')%nat
  end.

(** [char::is_whitespace]: Unicode White_Space *)
Definition is_whitespace (c : char) : bool :=
  ((9 <=? c) && (c <=? 13)) || (c =? 32) || (c =? 133) || (c =? 160)
  || (c =? 5760) || ((8192 <=? c) && (c <=? 8202)) || (c =? 8232) || (c =? 8233)
  || (c =? 8239) || (c =? 8287) || (c =? 12288).

(** [char::is_ascii] / [str::is_ascii] *)
Definition char_is_ascii (c : char) : bool := c <? 128.
Definition is_ascii (s : str) : bool := forallb char_is_ascii s.

(** [to_ascii_lowercase] on one character *)
Definition to_ascii_lower (c : char) : char :=
  if (65 <=? c) && (c <=? 90) then c + 32 else c.

Fixpoint str_eqb (a b : str) : bool :=
  match a, b with
  | [], [] => true
  | x :: a', y :: b' => (x =? y) && str_eqb a' b'
  | _, _ => false
  end.

(** [AsciiExt::eq_ignore_ascii_case] *)
Definition eq_ignore_ascii_case (a b : str) : bool :=
  str_eqb (map to_ascii_lower a) (map to_ascii_lower b).

(** Membership in a [&[char]] pattern *)
Definition in_chars (cs : list char) (c : char) : bool := existsb (N.eqb c) cs.

(** [str::find] with a character predicate.  Rust returns the byte index; every
    use slices the same string at that index, so the model returns the character
    index. *)
Fixpoint find_char (p : char -> bool) (s : str) : option nat :=
  match s with
  | [] => None
  | c :: s' => if p c then Some 0%nat
               else match find_char p s' with
                    | Some n => Some (S n)
                    | None => None
                    end
  end.

(** [str::starts_with(&str)] *)
Fixpoint starts_with (pat s : str) : bool :=
  match pat, s with
  | [], _ => true
  | p :: pat', c :: s' => (p =? c) && starts_with pat' s'
  | _ :: _, [] => false
  end.

(** [str::find(&str)] (character index, see [find_char]) *)
Fixpoint find_str (pat s : str) : option nat :=
  if starts_with pat s then Some 0%nat
  else match s with
       | [] => None
       | _ :: s' => match find_str pat s' with
                    | Some n => Some (S n)
                    | None => None
                    end
       end.

(** [str::trim_left] *)
Fixpoint trim_left (s : str) : str :=
  match s with
  | [] => []
  | c :: s' => if is_whitespace c then trim_left s' else s
  end.

(** [str::trim] *)
Definition trim (s : str) : str := rev (trim_left (rev (trim_left s))).

(** [str::split_whitespace].  [acc] is the current word, reversed. *)
Fixpoint split_whitespace_aux (acc : str) (s : str) : list str :=
  match s with
  | [] => match acc with [] => [] | _ => [rev acc] end
  | c :: s' =>
      if is_whitespace c
      then match acc with
           | [] => split_whitespace_aux [] s'
           | _ => rev acc :: split_whitespace_aux [] s'
           end
      else split_whitespace_aux (c :: acc) s'
  end.
Definition split_whitespace (s : str) : list str := split_whitespace_aux [] s.

(** [str::split(char)] *)
Fixpoint split_char (sep : char) (s : str) : list str :=
  match s with
  | [] => [[]]
  | c :: s' =>
      if c =? sep then [] :: split_char sep s'
      else match split_char sep s' with
           | [] => [[c]]               (* unreachable: the result is never empty *)
           | w :: ws => (c :: w) :: ws
           end
  end.

(** [Display] of an unsigned / signed integer (decimal). *)
Fixpoint decimal_aux (fuel : nat) (n : N) (acc : str) : str :=
  match fuel with
  | O => acc
  | S fuel' =>
      let d := 48 + n mod 10 in
      if n <? 10 then d :: acc else decimal_aux fuel' (n / 10) (d :: acc)
  end.
Definition decimal (n : N) : str := decimal_aux (S (N.to_nat (N.log2 n))) n [].
Definition decimal_z (z : Z) : str :=
  match z with
  | Z0 => decimal 0
  | Zpos p => decimal (Npos p)
  | Zneg p => c_minus :: decimal (Npos p)
  end.

(** ** [text/identifier.rs] *)

(** [identifier_eq], text/identifier.rs:9-12 *)
Definition identifier_eq (left right : str) : bool :=
  is_ascii left && is_ascii right && eq_ignore_ascii_case left right.

(** [IdentifierError], text/identifier.rs:61-76 *)
Inductive identifier_error :=
| IdEmpty
| IdNotAscii
| IdWhitespace (whitespace : char)
| IdForbidden (forbidden : char).

(** [FORBIDDEN], text/identifier.rs:106 *)
Definition FORBIDDEN : list char :=
  [c_eq; c_quot; c_slash; c_gt; c_lt; c_amp; c_comma; c_semi].

(** [validate], text/identifier.rs:103-124.  The [expect("found char")] at line
    119 takes the first character of a one-character match, so it is merged with
    the search. *)
Definition validate (value : str) : str + identifier_error :=
  match value with
  | [] => inr IdEmpty
  | _ =>
    if negb (is_ascii value) then inr IdNotAscii
    else match find is_whitespace value with
         | Some whitespace => inr (IdWhitespace whitespace)
         | None =>
             match find (in_chars FORBIDDEN) value with
             | Some forbidden => inr (IdForbidden forbidden)
             | None => inl value
             end
         end
  end.

(** [Deferred], text/deferred.rs:7-10 *)
Inductive deferred := StaticStr (s : str) | Actual (s : str).

(** [Deref for Deferred] / [Display for Deferred], text/deferred.rs:32-52 *)
Definition deferred_str (d : deferred) : str :=
  match d with StaticStr s => s | Actual s => s end.

(** derived [PartialEq for Deferred], text/deferred.rs:6: variants are compared *)
Definition deferred_eqb (a b : deferred) : bool :=
  match a, b with
  | StaticStr x, StaticStr y => str_eqb x y
  | Actual x, Actual y => str_eqb x y
  | _, _ => false
  end.

(** [Identifier], text/identifier.rs:34-36 (its [Text] wrapper, text/base.rs:9-12,
    is a newtype of [Deferred] and is erased). *)
Record ident := Ident { id_text : deferred }.
(** [Deref for Identifier], [Display for Identifier], [to_string] *)
Definition id_str (i : ident) : str := deferred_str (id_text i).

(** [Identifier::from_static_str], text/identifier.rs:41-45; also
    [IntoIdentifier for &'static str] *)
Definition ident_from_static_str (value : str) : ident + identifier_error :=
  match validate value with
  | inl v => inl (Ident (StaticStr v))
  | inr e => inr e
  end.

(** [Identifier::from_str], text/identifier.rs:126-134 *)
Definition ident_from_str (value : str) : ident + identifier_error :=
  match validate value with
  | inl v => inl (Ident (Actual v))
  | inr e => inr e
  end.

(** [Identifier::is_eq], text/identifier.rs:49-51 *)
Definition ident_is_eq (i : ident) (value : str) : bool := identifier_eq (id_str i) value.

(** [PartialEq for Identifier], text/identifier.rs:143-148 *)
Definition ident_eqb (a b : ident) : bool := identifier_eq (id_str a) (id_str b).

(** ** [text/encoded.rs] *)

(** [ENCODE_CHARS], text/encoded.rs:8 *)
Definition ENCODE_CHARS : list char := [c_amp; c_lt; c_gt; c_quot].

(** [encode_char], text/encoded.rs:10-18; [None] is the [panic!] at line 16 *)
Definition encode_char (c : char) : option str :=
  if c =? c_amp then Some (lit "&amp;")
  else if c =? c_lt then Some (lit "&lt;")
  else if c =? c_gt then Some (lit "&gt;")
  else if c =? c_quot then Some (c_amp :: lit "quot;")
  else None.

(** Outcome of code that may panic; [EncFuel] is the explicit "loop did not
    finish" value of the model. *)
Inductive encode_outcome :=
| EncDone (s : str)
| EncPanic
| EncFuel.

(** the loop ['parts], text/encoded.rs:25-38; [tendril] is the accumulator *)
Fixpoint encode_parts (fuel : nat) (input tendril : str) : encode_outcome :=
  match fuel with
  | O => EncFuel
  | S fuel' =>
      match input with
      | [] => EncDone tendril
      | _ :: _ =>
          let len := match find_char (in_chars ENCODE_CHARS) input with
                     | Some pos => pos
                     | None => length input
                     end in
          let tendril := tendril ++ firstn len input in
          match skipn len input with
          | [] => EncDone tendril
          | chr :: rest =>
              match encode_char chr with
              | Some e => encode_parts fuel' rest (tendril ++ e)
              | None => EncPanic
              end
          end
      end
  end.

(** [encode_str_optional], text/encoded.rs:20-40 *)
Definition encode_str_optional (input : str) : option encode_outcome :=
  match find_char (in_chars ENCODE_CHARS) input with
  | None => None
  | Some _ => Some (encode_parts (S (length input)) input [])
  end.

(** [EncodedText], text/encoded.rs:43-45.  [Value] (text/value.rs:43-45) and
    [Data] (text/data.rs:39-41) are newtypes of it with forwarding methods. *)
Record encoded := Encoded { enc_text : deferred }.
Definition value := encoded.
Definition data := encoded.
(** [Display], [as_encoded_ref] *)
Definition enc_str (e : encoded) : str := deferred_str (enc_text e).
(** derived [PartialEq], text/encoded.rs:42 *)
Definition encoded_eqb (a b : encoded) : bool := deferred_eqb (enc_text a) (enc_text b).

(** [EncodedText::new], text/encoded.rs:49-54 *)
Definition enc_new : encoded := Encoded (Actual []).
(** [push_encoded_str], text/encoded.rs:56-58 with [Deferred::actual],
    text/deferred.rs:21-29 (its panic branch follows an assignment that excludes it) *)
Definition enc_push_encoded_str (e : encoded) (v : str) : encoded :=
  Encoded (Actual (enc_str e ++ v)).
(** [is_empty], text/encoded.rs:60-62 *)
Definition enc_is_empty (e : encoded) : bool :=
  match enc_str e with [] => true | _ => false end.
(** [from_encoded_tendril], text/encoded.rs:68-70 *)
Definition enc_from_encoded_tendril (s : str) : encoded := Encoded (Actual s).

(** [from_unencoded_static_str], text/encoded.rs:72-78; [None]: the encoder
    panicked or did not finish *)
Definition enc_from_unencoded_static_str_opt (v : str) : option encoded :=
  match encode_str_optional v with
  | Some (EncDone s) => Some (Encoded (Actual s))
  | Some _ => None
  | None => Some (Encoded (StaticStr v))
  end.
(** Total version used by the rest of the model.  The default branch is
    unreachable: theorem [C01_encoding_never_panics]. *)
Definition enc_from_unencoded_static_str (v : str) : encoded :=
  match enc_from_unencoded_static_str_opt v with
  | Some e => e
  | None => Encoded (StaticStr [])
  end.

(** [join], text/encoded.rs:80-89 *)
Definition enc_join (self other : encoded) : encoded :=
  if Nat.eqb (str_len (enc_str other)) 0 then self
  else Encoded (Actual (enc_str self ++ enc_str other)).

(** [from_unencoded_str], text/encoded.rs:91-95 (sic: no encoding happens) *)
Definition enc_from_unencoded_str (v : str) : encoded := Encoded (Actual v).
(** [from_raw], text/encoded.rs:97-101 *)
Definition enc_from_raw (v : str) : encoded := Encoded (Actual v).

(** [Identifier::into_value], text/identifier.rs:53-56 with
    [Value::from_deferred], text/value.rs:64-68 *)
Definition ident_into_value (i : ident) : value := Encoded (id_text i).

(** [impl_value_octal!], text/value.rs:137-162 *)
Definition value_from_int (z : Z) : value := enc_from_encoded_tendril (decimal_z z).
