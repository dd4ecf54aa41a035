(** Properties C01-C05 and C37: text, identifiers, numbers. *)
From Coq Require Import String List NArith ZArith Bool.
Import ListNotations.
From Verif Require Import Text Event Machine SpecText TextProofs TextProofs2.
From Verif Require Api.
Open Scope N_scope.

(** ** C01 Static text is inert markup *)

(** The encoder neither panics nor loops. *)
Theorem C01_encoding_never_panics : forall s,
  exists e, enc_from_unencoded_static_str_opt s = Some e.
Proof. exact static_never_panics. Qed.
Print Assumptions C01_encoding_never_panics.

(** Static text given as content yields one data event whose rendering is inert. *)
Theorem C01_static_content_inert : forall s,
  exists d, into_stream (CStatic s) = SContent (Some d) /\ Inert (display_event (Data d)).
Proof. exact static_content_inert. Qed.
Print Assumptions C01_static_content_inert.

(** Static text given as an attribute value is rendered between double quotes, and the
    text between them is inert. *)
Theorem C01_static_value_inert : forall name s,
  exists r, display_attribute (Attribute name (Some (enc_from_unencoded_static_str s)))
              = id_str name ++ [61; 34] ++ r ++ [34]
            /\ Inert r.
Proof. exact static_value_inert. Qed.
Print Assumptions C01_static_value_inert.

(** So is a literal given to a call that changes attributes. *)
Theorem C01_value_argument : forall name s,
  exists r, display_attribute (Attribute name (Some (Api.into_value (Api.VAStatic s))))
              = id_str name ++ [61; 34] ++ r ++ [34]
            /\ Inert r.
Proof. exact value_argument_inert. Qed.
Print Assumptions C01_value_argument.

Example C01_example : display_event (Data (enc_from_unencoded_static_str (lit "a<b & ""c""")))
                      = lit "a&lt;b &amp; &quot;c&quot;".
Proof. vm_compute. reflexivity. Qed.

(** ** C02 Encoding loses nothing *)

(** The emitted text decodes to the given text and to nothing else. *)
Theorem C02_encoding_lossless : forall s s',
  Decodes (enc_str (enc_from_unencoded_static_str s)) s' <-> s' = s.
Proof. exact static_decodes. Qed.
Print Assumptions C02_encoding_lossless.

(** The same for literals given to calls that change attributes. *)
Theorem C02_value_argument : forall s s',
  Decodes (enc_str (Api.into_value (Api.VAStatic s))) s' <-> s' = s.
Proof. exact value_argument_decodes. Qed.
Print Assumptions C02_value_argument.

Theorem C02_encoding_injective : forall s s',
  enc_str (enc_from_unencoded_static_str s) = enc_str (enc_from_unencoded_static_str s') ->
  s = s'.
Proof. exact static_injective. Qed.
Print Assumptions C02_encoding_injective.

(** Text without special characters is stored as it is. *)
Theorem C02_plain_unchanged : forall s,
  (forall c, In c s -> c <> 38 /\ c <> 60 /\ c <> 62 /\ c <> 34) ->
  enc_from_unencoded_static_str s = Encoded (StaticStr s).
Proof. exact static_plain. Qed.
Print Assumptions C02_plain_unchanged.

Example C02_example : enc_from_unencoded_static_str (lit "it's 3; ok")
                      = Encoded (StaticStr (lit "it's 3; ok")).
Proof. apply C02_plain_unchanged. vm_compute. intuition (subst; discriminate). Qed.

(** ** C03 Constructors documented as encoding do encode

    False: [Data::from_unencoded_str] and [Value::from_unencoded_str] store their argument
    unencoded, so untrusted text becomes markup. *)
Theorem C03_from_unencoded_str_encodes_refuted :
  exists s, enc_str (enc_from_unencoded_str s) <> enc_str (enc_from_unencoded_static_str s)
            /\ ~ Inert (enc_str (enc_from_unencoded_str s)).
Proof. exact from_unencoded_str_bad. Qed.
Print Assumptions C03_from_unencoded_str_encodes_refuted.

(** It goes wrong for every text that needs encoding, and for no other. *)
Theorem C03_from_unencoded_str_wrong_iff : forall s,
  enc_str (enc_from_unencoded_str s) <> enc_str (enc_from_unencoded_static_str s) <->
  exists c, In c s /\ (c = 38 \/ c = 60 \/ c = 62 \/ c = 34).
Proof. exact from_unencoded_str_wrong_iff. Qed.
Print Assumptions C03_from_unencoded_str_wrong_iff.

(** ** C04 Identifier validation is exact *)

Theorem C04_identifier_accepted_iff : forall s,
  ((exists i, ident_from_str s = inl i) <-> ValidName s) /\
  ((exists i, ident_from_static_str s = inl i) <-> ValidName s).
Proof. exact ident_accepted_iff. Qed.
Print Assumptions C04_identifier_accepted_iff.

(** An accepted identifier is the given text. *)
Theorem C04_identifier_text : forall s i,
  ident_from_str s = inl i \/ ident_from_static_str s = inl i -> id_str i = s.
Proof. exact ident_text. Qed.
Print Assumptions C04_identifier_text.

(** The reported reason is the one that holds of the text. *)
Theorem C04_identifier_error_iff : forall s e,
  (ident_from_str s = inr e <-> NameError s e) /\
  (ident_from_static_str s = inr e <-> NameError s e).
Proof. exact ident_error_iff. Qed.
Print Assumptions C04_identifier_error_iff.

(** A literal given to a call as a name is this identifier, or this error. *)
Theorem C04_name_argument : forall s,
  (forall i, Api.into_identifier (Api.IAStatic s) = inl i <-> ValidName s /\ i = Ident (StaticStr s)) /\
  (forall e, Api.into_identifier (Api.IAStatic s) = inr e <-> NameError s e).
Proof. exact name_argument. Qed.
Print Assumptions C04_name_argument.

Example C04_example_valid : ValidName (lit "data-x:y.z'#!").
Proof.
  rewrite <- validate_iff. vm_compute. eauto.
Qed.
Example C04_example_error : NameError (lit "a=b c") (IdWhitespace 32).
Proof. apply C04_identifier_error_iff. vm_compute. reflexivity. Qed.

(** ** C05 Identifier equality *)

Theorem C05_identifier_equality : forall a b,
  ValidName (id_str a) -> ValidName (id_str b) ->
  (ident_eqb a b = true <-> SameName (id_str a) (id_str b)).
Proof. exact ident_eqb_spec. Qed.
Print Assumptions C05_identifier_equality.

Theorem C05_identifier_equivalence : forall a b c,
  ValidName (id_str a) ->
  ident_eqb a a = true /\
  (ident_eqb a b = true -> ident_eqb b a = true) /\
  (ident_eqb a b = true -> ident_eqb b c = true -> ident_eqb a c = true).
Proof. exact ident_equivalence. Qed.
Print Assumptions C05_identifier_equivalence.

Example C05_example : ident_eqb (Ident (StaticStr (lit "onClick"))) (Ident (Actual (lit "ONclick")))
                      = true
  /\ ident_eqb (Ident (StaticStr (lit "a@"))) (Ident (StaticStr (lit "a`"))) = false.
Proof. vm_compute. auto. Qed.

(** ** C37 Integers render as decimal numerals *)

Theorem C37_integer_content : forall z,
  exists d, into_stream (CInt z) = SContent (Some d) /\
            SignedNumeral z (display_event (Data d)) /\
            Inert (display_event (Data d)).
Proof. exact integer_content. Qed.
Print Assumptions C37_integer_content.

Theorem C37_integer_value : forall z, SignedNumeral z (enc_str (value_from_int z)).
Proof. exact decimal_z_numeral. Qed.
Print Assumptions C37_integer_value.

(** A number given to a call that changes attributes *)
Theorem C37_value_argument : forall z, SignedNumeral z (enc_str (Api.into_value (Api.VAInt z))).
Proof. exact value_argument_number. Qed.
Print Assumptions C37_value_argument.

(** A numeral determines its number. *)
Theorem C37_numeral_determines_number : forall z z' s,
  SignedNumeral z s -> SignedNumeral z' s -> z = z'.
Proof. exact signed_numeral_inj. Qed.
Print Assumptions C37_numeral_determines_number.

Example C37_example : SignedNumeral (-120) (lit "-120").
Proof. exact (decimal_z_numeral (-120)). Qed.
