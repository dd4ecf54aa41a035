(** Properties C15 (locations), C35 (files), C36 (equality). *)
From Coq Require Import String List NArith Arith Bool.
Import ListNotations.
From Verif Require Import Text Event Input Parse Selector Machine Template
  SpecText SpecAttr SpecSelect SpecLocation SpecFile LocationProofs FileProofs MiscProofs FileProofs2.

(** ** C15 Locations are line/column/byte-offset of a prefix *)

(** However the text is consumed in pieces, the location is that of the consumed prefix. *)
Theorem C15_location_of_prefix : forall pieces,
  AtPrefix (concat pieces) (fold_left with_consumed pieces at_start).
Proof. exact at_prefix_all. Qed.
Print Assumptions C15_location_of_prefix.

(** A prefix has only one location. *)
Theorem C15_location_unique : forall p l l', AtPrefix p l -> AtPrefix p l' -> l = l'.
Proof. exact at_prefix_unique. Qed.
Print Assumptions C15_location_unique.

Example C15_example :
  fold_left with_consumed [[97; 10]; []; [233; 10; 98]; [99]]%N at_start = Location 3 3 7.
Proof. reflexivity. Qed.

(** ** C35 Loading from a file equals parsing its contents, for every read schedule *)

(** If loading succeeds, there were no I/O errors, the bytes read are the UTF-8 form of a
    text, and the result is that of parsing this text. *)
Theorem C35_success : forall path reads o events, Nonempty reads ->
  from_file path (inl reads) o = TOk events ->
  exists s chunks, reads = map inl chunks /\ ScalarStr s /\ concat chunks = utf8 s /\
                   from_str s o = TOk events.
Proof. exact file_success. Qed.
Print Assumptions C35_success.

(** Two successful loads of the same bytes agree, however the reads split them. *)
Theorem C35_schedule_irrelevant : forall path path' reads reads' o events events',
  Nonempty reads -> Nonempty reads' ->
  (exists chunks chunks', reads = map inl chunks /\ reads' = map inl chunks' /\
                          concat chunks = concat chunks') ->
  from_file path (inl reads) o = TOk events ->
  from_file path' (inl reads') o = TOk events' -> events = events'.
Proof. exact file_schedule_irrelevant. Qed.
Print Assumptions C35_schedule_irrelevant.

(** If no read splits a character, loading gives exactly the result of parsing, including
    errors and limits. *)
Theorem C35_whole_characters : forall path pieces o,
  (forall p, In p pieces -> p <> [] /\ ScalarStr p) ->
  from_file path (inl (map (fun p => inl (utf8 p)) pieces)) o
  = in_file path (from_str (concat pieces) o).
Proof. exact file_whole. Qed.
Print Assumptions C35_whole_characters.

(** ASCII files load whatever the reads. *)
Theorem C35_ascii : forall path chunks o,
  (forall c, In c chunks -> c <> [] /\ is_ascii c = true) ->
  from_file path (inl (map inl chunks)) o = in_file path (from_str (concat chunks) o).
Proof. exact file_ascii. Qed.
Print Assumptions C35_ascii.

(** Errors are those of opening, of a read, of decoding, or of the text. *)
Theorem C35_errors : forall path opened o e, from_file path opened o = TErr e ->
  match opened with
  | inr code => e = FileOpen path code
  | inl reads => Nonempty reads ->
      (exists code, In (inr code) reads /\ e = FileRead path code) \/
      e = FileDecode path 0 \/
      (exists l, max_input_len o = Some l /\ e = FileInput path (LengthLimitExceeded l)) \/
      (exists s chunks e', reads = map inl chunks /\ concat chunks = utf8 s /\
                           from_str s o = TErr e' /\ e = FileInput path e')
  end.
Proof. exact file_errors. Qed.
Print Assumptions C35_errors.

(** The result is exactly that described by [Loads]. *)
Theorem C35_result : forall path o reads r, Nonempty reads ->
  from_file path (inl reads) o = r <-> Loads path o reads r.
Proof. exact loads_iff. Qed.
Print Assumptions C35_result.

(** Reading stops at the limit: what would be read afterwards makes no difference. *)
Theorem C35_limit_stops : forall path o l pieces rest, Whole pieces -> max_input_len o = Some l ->
  (l < length (utf8 (concat pieces)))%nat ->
  from_file path (inl (whole_reads pieces ++ rest)) o = TErr (FileInput path (LengthLimitExceeded l)).
Proof. exact limit_stops. Qed.
Print Assumptions C35_limit_stops.

(** Two short reads, then one that fails. *)
Example C35_example_limit :
  Whole [lit "<p>"; lit "</p>"] /\ max_input_len (Options None (Some 4%nat)) = Some 4%nat /\
  (4 < length (utf8 (concat [lit "<p>"; lit "</p>"])))%nat /\
  from_file (lit "f") (inl [inl (lit "<p>"); inl (lit "</p>"); inr 5%N]) (Options None (Some 4%nat))
  = TErr (FileInput (lit "f") (LengthLimitExceeded 4)).
Proof.
  split; [|split; [reflexivity|split; [apply Nat.ltb_lt; reflexivity|vm_compute; reflexivity]]].
  intros p [<-|[<-|[]]]; (split; [discriminate|]); intros c Hc; left; simpl in Hc; intuition (subst; reflexivity).
Qed.

(** Finding: a valid UTF-8 file whose text parses can fail to load, namely if a read ends
    inside a character. *)
Theorem C35_split_character_refuted : exists s chunks o path events e,
  ScalarStr s /\ concat chunks = utf8 s /\ Nonempty (map inl chunks) /\
  from_str s o = TOk events /\ from_file path (inl (map inl chunks)) o = TErr e.
Proof. exact file_split_refuted. Qed.
Print Assumptions C35_split_character_refuted.

Example C35_example :
  from_file (lit "f") (inl [inl (lit "<p>x"); inl (lit "</p>")]) (Options None None)
  = TOk [OpeningTag (Ident (Actual (lit "p"))) []; Data (Encoded (Actual (lit "x")));
         ClosingTag (Ident (Actual (lit "p")))].
Proof. vm_compute. reflexivity. Qed.

(** ** C36 Template equality is an equivalence compatible with rendering *)

Theorem C36_reflexive : forall t, ValidTemplate t -> template_eqb t t = true.
Proof. exact template_eqb_refl. Qed.
Print Assumptions C36_reflexive.
Theorem C36_symmetric : forall a b, template_eqb a b = template_eqb b a.
Proof. exact template_eqb_sym. Qed.
Print Assumptions C36_symmetric.
Theorem C36_transitive : forall a b c, template_eqb a b = true -> template_eqb b c = true ->
  template_eqb a c = true.
Proof. exact template_eqb_trans. Qed.
Print Assumptions C36_transitive.

(** Equal templates render alike up to the case of letters. *)
Theorem C36_rendering : forall a b, template_eqb a b = true ->
  SameName (display_events a) (display_events b).
Proof. exact template_eqb_display. Qed.
Print Assumptions C36_rendering.

(** The converse fails: templates with the same rendering can be unequal. *)
Theorem C36_converse_refuted : exists a b, ValidTemplate a /\ ValidTemplate b /\
  display_events a = display_events b /\ template_eqb a b = false.
Proof. exact same_rendering_unequal. Qed.
Print Assumptions C36_converse_refuted.

Example C36_example :
  template_eqb [OpeningTag (Ident (Actual (lit "B"))) []; ClosingTag (Ident (StaticStr (lit "b")))]
               [OpeningTag (Ident (Actual (lit "b"))) []; ClosingTag (Ident (Actual (lit "B")))]
  = true.
Proof. reflexivity. Qed.
