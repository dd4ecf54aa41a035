(** Character references of the HTML standard, and the tokenizer that replaces them by the
    characters they stand for.  Together with [SpecHtml5] this is the whole tokenizer but for
    what is said there about doctypes and about the tree builder. *)
From Coq Require Import String List NArith Bool.
Import ListNotations.
From Verif Require Import Text Event SpecHtml5 SpecEntities.
Open Scope N_scope.

(** ** Character references *)

Definition digit (c : char) : bool := (48 <=? c) && (c <=? 57).
Definition alnum (c : char) : bool := alpha c || digit c.
Definition decimal_digit (c : char) : option N := if digit c then Some (c - 48) else None.
Definition hex_digit (c : char) : option N :=
  if digit c then Some (c - 48)
  else if (65 <=? c) && (c <=? 70) then Some (c - 55)
  else if (97 <=? c) && (c <=? 102) then Some (c - 87)
  else None.
(** The number with which [s] begins, and how many digits it has. *)
Fixpoint number (base : N) (value : char -> option N) (n : N) (s : str) : N * nat :=
  match s with
  | [] => (n, O)
  | c :: s =>
      match value c with
      | Some d => let '(v, k) := number base value (base * n + d) s in (v, S k)
      | None => (n, O)
      end
  end.

(** The characters which numbers from 128 to 159 stand for. *)
Definition windows : list (N * char) :=
  [(128, 8364); (130, 8218); (131, 402); (132, 8222); (133, 8230); (134, 8224); (135, 8225);
   (136, 710); (137, 8240); (138, 352); (139, 8249); (140, 338); (142, 381); (145, 8216);
   (146, 8217); (147, 8220); (148, 8221); (149, 8226); (150, 8211); (151, 8212); (152, 732);
   (153, 8482); (154, 353); (155, 8250); (156, 339); (158, 382); (159, 376)].
(** 0, numbers above 10FFFF and surrogates stand for U+FFFD. *)
Definition code_point (n : N) : char :=
  if (n =? 0) || (1114111 <? n) || ((55296 <=? n) && (n <=? 57343)) then 65533
  else match find (fun x => fst x =? n) windows with Some x => snd x | None => n end.

(** A reference is given by the characters it stands for and the number of characters after
    the "&" that belong to it.  The semicolon may be missing. *)
Definition semicolon (s : str) (k : nat) : nat :=
  match nth_error s k with
  | Some c => if c =? 59 then S k else k
  | None => k
  end.
(** [s] is what comes after "&#". *)
Definition numeric (s : str) : option (str * nat) :=
  match s with
  | [] => None
  | c :: r =>
      if (c =? 120) || (c =? 88)
      then match number 16 hex_digit 0 r with
           | (_, O) => None
           | (n, k) => Some ([code_point n], S (S (semicolon r k)))
           end
      else match number 10 decimal_digit 0 s with
           | (_, O) => None
           | (n, k) => Some ([code_point n], S (semicolon s k))
           end
  end.

Fixpoint starts (name s : str) : bool :=
  match name, s with
  | [], _ => true
  | x :: name, y :: s => (x =? y) && starts name s
  | _, [] => false
  end.
(** The longest name with which [s] begins. *)
Definition longest (table : list (str * str)) (s : str) : option (str * str) :=
  fold_left (fun found x =>
    if starts (fst x) s
       && match found with Some y => Nat.ltb (length (fst y)) (length (fst x)) | None => true end
    then Some x else found) table None.
Definition named (table : list (str * str)) (attribute : bool) (s : str) : option (str * nat) :=
  match longest table s with
  | None => None
  | Some (name, x) =>
      (* In attributes, a name without its semicolon does not count before "=", letters and
         digits: this is how query parameters are written. *)
      if attribute && negb (last name 0 =? 59)
         && match nth_error s (length name) with
            | Some c => (c =? 61) || alnum c
            | None => false
            end
      then None
      else Some (x, length name)
  end.
Definition names : list (str * str) := map (fun x => (lit (fst x), snd x)) entities.
(** The reference with which [s], the text after an "&", begins. *)
Definition reference (attribute : bool) (s : str) : option (str * nat) :=
  match s with
  | [] => None
  | c :: r => if c =? 35 then numeric r else named names attribute s
  end.

(** A text with its references replaced.  [skip] characters belong to the last one. *)
Fixpoint expand (ref : str -> option (str * nat)) (skip : nat) (s : str) : str :=
  match s with
  | [] => []
  | c :: s =>
      match skip with
      | S k => expand ref k s
      | O =>
          if c =? 38
          then match ref s with
               | Some (x, k) => x ++ expand ref k s
               | None => c :: expand ref 0 s
               end
          else c :: expand ref 0 s
      end
  end.

(** ** The tokenizer with character references *)

(** Where references are replaced; in the value of an attribute or not. *)
Definition takes (x : state) : option bool :=
  match x with
  | SData | SRaw Rcdata _ => Some false
  | SValueDouble _ _ _ | SValueSingle _ _ _ | SValueUnquoted _ _ _ => Some true
  | _ => None
  end.
(** The characters of a reference are added to the value or emitted.  (If there is no
    reference after the "&", the characters of what looked like one are treated like all
    others, which is what the standard says in more words.) *)
Definition put (x : state) (s : str) : state * list token :=
  match x with
  | SValueDouble g a v => (SValueDouble g a (v ++ s), [])
  | SValueSingle g a v => (SValueSingle g a (v ++ s), [])
  | SValueUnquoted g a v => (SValueUnquoted g a (v ++ s), [])
  | _ => (x, chars s)
  end.

Section reader.
Context (scripting : bool) (ref : bool -> str -> option (str * nat)).

(** Consume the character [c], which is followed by [rest]: the next state, the tokens, and
    how many of the characters that follow are consumed too. *)
Fixpoint feed_ref (k : nat) (x : state) (c : char) (rest : str) : state * list token * nat :=
  match k with
  | O => (x, [], O)
  | S k =>
      match (if c =? 38 then match takes x with Some a => ref a rest | None => None end else None) with
      | Some (s, j) => (put x s, j)
      | None =>
          let '(y, o, r) := step scripting x c in
          if r then let '(z, o', j) := feed_ref k y c rest in (z, o ++ o', j) else (y, o, O)
      end
  end.
Fixpoint read_from (x : state) (skip : nat) (input : str) : list token :=
  match input with
  | [] => finish x
  | c :: rest =>
      match skip with
      | S k => read_from x k rest
      | O => let '(y, o, j) := feed_ref 4 x c rest in o ++ read_from y j rest
      end
  end.
End reader.

(** What a program that reads HTML makes of a text. *)
Definition read (scripting : bool) (input : str) : list token :=
  read_from scripting reference SData 0 (newlines input).

(** ** What the events of a template say to a reader *)

Section meaning.
Context (ref : bool -> str -> option (str * nat)) (scripting : bool).

Definition expand_token (t : token) : token :=
  match t with
  | TStart n a f => TStart n (map (fun x => (fst x, expand (ref true) 0 (snd x))) a) f
  | _ => t
  end.
(** The element contains text without references. *)
Definition is_raw (n : str) : bool :=
  existsb (same (lower n))
    (map lit ["script"; "style"; "xmp"; "iframe"; "noembed"; "noframes"]%string
     ++ (if scripting then [lit "noscript"] else [])).
Definition raw_after (ev : event) : bool :=
  match ev with
  | OpeningTag t _ => is_raw (id_str t)
  | _ => false
  end.
Definition shown_text (raw : bool) (s : str) : list token :=
  chars (if raw then s else expand (ref false) 0 s).
(** [text] has been seen before.  References may extend from one text to the next. *)
Fixpoint shown (raw : bool) (text : str) (evs : list event) : list token :=
  match evs with
  | [] => shown_text raw text
  | Noop :: evs => shown raw text evs
  | Data c :: evs | RawData c :: evs => shown raw (text ++ enc_str c) evs
  | ev :: evs =>
      shown_text raw text ++ map expand_token (event_tokens ev)
      ++ shown (raw_after ev) [] evs
  end.

(** The meaning of events, one by one. *)
Fixpoint shown_each (raw : bool) (evs : list event) : list token :=
  match evs with
  | [] => []
  | Noop :: evs => shown_each raw evs
  | Data c :: evs | RawData c :: evs =>
      shown_text raw (enc_str c) ++ shown_each raw evs
  | ev :: evs =>
      map expand_token (event_tokens ev) ++ shown_each (raw_after ev) evs
  end.
End meaning.

(** No reference begins in [s] and extends over its end: after every "&" comes something that
    ends a reference. *)
Definition Settled (s : str) : Prop :=
  forall p q, s = p ++ 38 :: q -> exists c, In c q /\ alnum c = false /\ c <> 35.
(** Every text of the template is like that. *)
Definition SettledTexts (evs : list event) : Prop :=
  forall c, In (Data c) evs \/ In (RawData c) evs -> Settled (enc_str c).
