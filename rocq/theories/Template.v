(** Model of [src/template.rs] (creating templates).  [Template::transform] and
    [Template::from_stream] are in [Machine].  No proofs. *)
From Coq Require Import String NArith.
From stdpp Require Import gmap.
From Verif Require Import Text Event Input Parse Selector Machine.
Local Open Scope N_scope.

(** A [Template] (template.rs:142-144) is its list of events; the [Rc] only shares it.
    Derived [PartialEq], template.rs:141 *)
Definition template_eqb (a b : list event) : bool := list_eqb event_eqb a b.

(** Result of a function that returns [Result], panics or runs out of fuel. *)
Inductive tresult (E : Type) :=
| TOk (events : list event)
| TErr (e : E)
| TPanic
| TFuel.
Global Arguments TOk {E} events.
Global Arguments TErr {E} e.
Global Arguments TPanic {E}.
Global Arguments TFuel {E}.

(** [Template::from_str], template.rs:216-232 *)
Definition from_str (s : str) (o : options) : tresult input_error :=
  let parsed := match parse_events s o with
                | POk events => TOk events
                | PErr e => TErr (ParseError e)
                | PPanic => TPanic
                | PFuel => TFuel
                end in
  match max_input_len o with
  | Some limit => if Nat.ltb limit (str_len s) then TErr (LengthLimitExceeded limit) else parsed
  | None => parsed
  end.

(** [Template::with_element], template.rs:270-285; [tag] is the result of
    [into_identifier] *)
Definition with_element (tag : ident + identifier_error) : list event + identifier_error :=
  match tag with
  | inr e => inr e
  | inl tag => inl [if is_void_tag (id_str tag) then VoidTag tag [] else SelfClosedTag tag []]
  end.

(** [Template::with_transformed_element], template.rs:317-336 *)
Definition with_transformed_element (n : nat) (tag : ident + identifier_error) (p : pipeline)
  : out (list event + stream_error) :=
  match tag with
  | inr e => Done ∅ (inr (SEIdentifier e))
  | inl tag =>
      match with_element (inl tag) with
      | inr e => Done ∅ (inr (SEIdentifier e))
      | inl events => transform n events [OSelectOnce false (inl (SelTag tag)) p]
      end
  end.

(** ** [Template::from_file], template.rs:149-213 *)

Definition byte := N.

(** continuation byte 80..BF *)
Definition is_cont (b : byte) : bool := (128 <=? b) && (b <=? 191).

(** The first code point of a byte sequence and its length, if the sequence starts with
    a well-formed UTF-8 sequence ([str::from_utf8], Unicode table 3-7). *)
Definition utf8_first (bs : list byte) : option (char * nat) :=
  match bs with
  | [] => None
  | b0 :: t0 =>
      if b0 <? 128 then Some (b0, 1%nat)
      else match t0 with
      | [] => None
      | b1 :: t1 =>
          if (194 <=? b0) && (b0 <=? 223) then
            if is_cont b1 then Some ((b0 - 192) * 64 + (b1 - 128), 2%nat) else None
          else match t1 with
          | [] => None
          | b2 :: t2 =>
              if (224 <=? b0) && (b0 <=? 239) then
                if (if b0 =? 224 then (160 <=? b1) && (b1 <=? 191)
                    else if b0 =? 237 then (128 <=? b1) && (b1 <=? 159)
                    else is_cont b1) && is_cont b2
                then Some (((b0 - 224) * 64 + (b1 - 128)) * 64 + (b2 - 128), 3%nat) else None
              else match t2 with
              | [] => None
              | b3 :: _ =>
                  if (240 <=? b0) && (b0 <=? 244) then
                    if (if b0 =? 240 then (144 <=? b1) && (b1 <=? 191)
                        else if b0 =? 244 then (128 <=? b1) && (b1 <=? 143)
                        else is_cont b1) && is_cont b2 && is_cont b3
                    then Some ((((b0 - 240) * 64 + (b1 - 128)) * 64 + (b2 - 128)) * 64
                               + (b3 - 128), 4%nat) else None
                  else None
              end
          end
      end
  end.

(** [str::from_utf8] and [Utf8Error::valid_up_to]: the longest valid prefix decoded, its
    length in bytes and the remaining bytes.  Every step drops at least one byte, so
    [length bs] steps are enough. *)
Fixpoint utf8_prefix (fuel : nat) (bs : list byte) : str * nat * list byte :=
  match fuel with
  | O => ([], 0%nat, bs)
  | S fuel =>
      match utf8_first bs with
      | Some (c, n) =>
          let '(s, m, rest) := utf8_prefix fuel (drop n bs) in (c :: s, (n + m)%nat, rest)
      | None => ([], 0%nat, bs)
      end
  end.
Definition from_utf8_prefix (bs : list byte) : str * nat * list byte :=
  utf8_prefix (length bs) bs.

(** One [read] call on the file: some bytes (at least one) or an I/O error.  After the
    list is used up, [read] returns 0 bytes (end of file). *)
Notation schedule := (list (list byte + N)).

(** The loop ['read], template.rs:166-206.  [buf] is the unconsumed part of the
    [BufReader]'s buffer: [fill_buf] reads (once) only if it is empty. *)
Fixpoint read_loop (fuel : nat) (path : str) (limit : option nat) (buf : list byte)
    (reads : schedule) (acc : str) : option (str + file_error) :=
  match fuel with
  | O => None
  | S fuel =>
      let filled := match buf with
                    | _ :: _ => inl (buf, reads)
                    | [] => match reads with
                            | [] => inl ([], [])
                            | inl bs :: reads => inl (bs, reads)
                            | inr code :: _ => inr code
                            end
                    end in
      match filled with
      | inr code => Some (inr (FileRead path code))
      | inl ([], _) => Some (inl acc)
      | inl (data, reads) =>
          let '(s, n, rest) := from_utf8_prefix data in
          match n with
          | O => Some (inr (FileDecode path 0))
          | S _ =>
              let acc := acc ++ s in
              match limit with
              | Some limit =>
                  if Nat.ltb limit (str_len acc)
                  then Some (inr (FileInput path (LengthLimitExceeded limit)))
                  else read_loop fuel path (Some limit) rest reads acc
              | None => read_loop fuel path None rest reads acc
              end
          end
      end
  end.

Definition schedule_size (reads : schedule) : nat :=
  fold_right (fun r n => match r with inl bs => (length bs + 2 + n)%nat | inr _ => S n end)
             1%nat reads.

(** [Template::from_file]; [opened] is the result of opening the file *)
Definition from_file (path : str) (opened : schedule + N) (o : options) : tresult file_error :=
  match opened with
  | inr code => TErr (FileOpen path code)
  | inl reads =>
      match read_loop (schedule_size reads) path (max_input_len o) [] reads [] with
      | None => TFuel
      | Some (inr e) => TErr e
      | Some (inl s) =>
          match from_str s o with
          | TOk events => TOk events
          | TErr e => TErr (FileInput path e)
          | TPanic => TPanic
          | TFuel => TFuel
          end
      end
  end.
