(** What loading a template from a file means, in terms of the results of the reads. *)
From Coq Require Import List NArith Arith.
Import ListNotations.
From Verif Require Import Text Input Parse Selector Template SpecLocation.
Local Open Scope nat_scope.

(** The result for the text of the file *)
Definition in_file (path : str) (r : tresult input_error) : tresult file_error :=
  match r with
  | TOk events => TOk events
  | TErr e => TErr (FileInput path e)
  | TPanic => TPanic
  | TFuel => TFuel
  end.

(** Reads that each give some characters, none of them split *)
Definition Whole (pieces : list str) : Prop := forall p, In p pieces -> p <> [] /\ ScalarStr p.
Definition whole_reads (pieces : list str) : list (list N + N) := map (fun p => inl (utf8 p)) pieces.
Definition Within (o : options) (s : str) : Prop :=
  forall l, max_input_len o = Some l -> length (utf8 s) <= l.
(** The bytes do not begin with a character. *)
Definition NoChar (bs : list N) : Prop := forall c rest, Scalar c -> bs <> utf8_char c ++ rest.

(** The reads are done one after the other until the end of the file, an input/output error,
    bytes that are no characters, or more text than the limit allows. *)
Inductive Loads (path : str) (o : options) : list (list N + N) -> tresult file_error -> Prop :=
| L_text pieces :
    Whole pieces -> Within o (concat pieces) ->
    Loads path o (whole_reads pieces) (in_file path (from_str (concat pieces) o))
| L_read pieces code rest :
    Whole pieces -> Within o (concat pieces) ->
    Loads path o (whole_reads pieces ++ inr code :: rest) (TErr (FileRead path code))
| L_decode pieces p bad rest :
    Whole pieces -> ScalarStr p -> Within o (concat pieces ++ p) -> bad <> [] -> NoChar bad ->
    Loads path o (whole_reads pieces ++ inl (utf8 p ++ bad) :: rest) (TErr (FileDecode path 0))
| L_limit pieces p bad rest l :
    Whole pieces -> ScalarStr p -> p <> [] -> NoChar bad ->
    Within o (concat pieces) -> max_input_len o = Some l ->
    l < length (utf8 (concat pieces ++ p)) ->
    Loads path o (whole_reads pieces ++ inl (utf8 p ++ bad) :: rest)
          (TErr (FileInput path (LengthLimitExceeded l))).
