(** Consequences of [TextProofs] in the form used by the property files. *)
From Coq Require Import String List NArith ZArith Bool Lia.
Import ListNotations.
From Verif Require Import Text Event Machine SpecText TextProofs.
From Verif Require Api.
Open Scope N_scope.

Lemma static_content_inert s :
  exists d, into_stream (CStatic s) = SContent (Some d) /\ Inert (display_event (Data d)).
Proof.
  eexists. split; [reflexivity|]. simpl. rewrite static_str. apply escape_inert.
Qed.

Lemma static_value_inert name s :
  exists r, display_attribute (Attribute name (Some (enc_from_unencoded_static_str s)))
              = id_str name ++ [61; 34] ++ r ++ [34] /\ Inert r.
Proof.
  exists (escape s). split; [|apply escape_inert].
  unfold display_attribute. simpl. now rewrite static_str.
Qed.

Lemma static_decodes s s' :
  Decodes (enc_str (enc_from_unencoded_static_str s)) s' <-> s' = s.
Proof.
  rewrite static_str. split.
  - intros H. eapply decodes_functional; [exact H|apply escape_decodes].
  - intros ->. apply escape_decodes.
Qed.

Lemma static_injective s s' :
  enc_str (enc_from_unencoded_static_str s) = enc_str (enc_from_unencoded_static_str s') -> s = s'.
Proof.
  intros H. apply static_decodes. rewrite <- H. now apply static_decodes.
Qed.

Lemma special_false c :
  in_chars ENCODE_CHARS c = false <-> c <> 38 /\ c <> 60 /\ c <> 62 /\ c <> 34.
Proof.
  rewrite <- not_true_iff_false, in_chars_spec. unfold ENCODE_CHARS, c_amp, c_lt, c_gt, c_quot.
  simpl. intuition.
Qed.

Lemma static_plain s :
  (forall c, In c s -> c <> 38 /\ c <> 60 /\ c <> 62 /\ c <> 34) ->
  enc_from_unencoded_static_str s = Encoded (StaticStr s).
Proof.
  intros H. unfold enc_from_unencoded_static_str. rewrite static_opt.
  replace (existsb (in_chars ENCODE_CHARS) s) with false; auto.
  symmetry. apply not_true_iff_false. rewrite existsb_exists. intros (x & Hx & E).
  apply H in Hx. apply special_false in Hx. congruence.
Qed.

Lemma from_unencoded_str_bad :
  exists s, enc_str (enc_from_unencoded_str s) <> enc_str (enc_from_unencoded_static_str s)
            /\ ~ Inert (enc_str (enc_from_unencoded_str s)).
Proof.
  exists (lit "<script>"). split.
  - vm_compute. discriminate.
  - intros [H _]. destruct (H 60) as [H' _]; [vm_compute; auto|]. congruence.
Qed.

Lemma escape_length s : (length s <= length (escape s))%nat /\
  ((exists c, In c s /\ in_chars ENCODE_CHARS c = true) -> length s < length (escape s))%nat.
Proof.
  induction s as [|c s [IH1 IH2]]; [simpl; split; [lia|intros (c & [] & _)]|].
  change (escape (c :: s)) with (escape1 c ++ escape s). rewrite app_length. simpl.
  destruct (escape1_cases c) as [H|(E & H)].
  - assert (4 <= length (escape1 c))%nat by (destruct H; vm_compute; lia). split; lia.
  - rewrite E. simpl. split; [lia|]. intros (x & [<-|Hx] & Hc).
    + apply special_false in H. congruence.
    + assert (length s < length (escape s))%nat by eauto. lia.
Qed.

Lemma from_unencoded_str_wrong_iff s :
  enc_str (enc_from_unencoded_str s) <> enc_str (enc_from_unencoded_static_str s) <->
  exists c, In c s /\ (c = 38 \/ c = 60 \/ c = 62 \/ c = 34).
Proof.
  rewrite static_str. change (enc_str (enc_from_unencoded_str s)) with s.
  split.
  - intros H. destruct (existsb (in_chars ENCODE_CHARS) s) eqn:E.
    + apply existsb_exists in E. destruct E as (c & Hc & E). exists c. split; auto.
      apply in_chars_spec in E. unfold ENCODE_CHARS, c_amp, c_lt, c_gt, c_quot in E.
      simpl in E. intuition.
    + exfalso. apply H. symmetry. apply escape_plain. intros c Hc.
      apply not_true_iff_false. intros H'. apply not_true_iff_false in E. apply E.
      apply existsb_exists. eauto.
  - intros (c & Hc & H) E. destruct (escape_length s) as [_ L]. rewrite <- E in L.
    assert (length s < length s)%nat; [|lia]. apply L. exists c. split; auto.
    apply not_false_iff_true. rewrite special_false. intuition.
Qed.

Lemma ident_accepted_iff s :
  ((exists i, ident_from_str s = inl i) <-> ValidName s) /\
  ((exists i, ident_from_static_str s = inl i) <-> ValidName s).
Proof.
  split; split.
  - intros [i H]. now apply ident_from_str_iff in H.
  - intros H. exists (Ident (Actual s)). now apply ident_from_str_iff.
  - intros [i H]. now apply ident_from_static_str_iff in H.
  - intros H. exists (Ident (StaticStr s)). now apply ident_from_static_str_iff.
Qed.

Lemma ident_text s i :
  ident_from_str s = inl i \/ ident_from_static_str s = inl i -> id_str i = s.
Proof.
  intros [H|H].
  - apply ident_from_str_iff in H. destruct H as [_ ->]. reflexivity.
  - apply ident_from_static_str_iff in H. destruct H as [_ ->]. reflexivity.
Qed.

Lemma ident_error_iff s e :
  (ident_from_str s = inr e <-> NameError s e) /\
  (ident_from_static_str s = inr e <-> NameError s e).
Proof. split; [apply ident_from_str_err|apply ident_from_static_str_err]. Qed.

Lemma ident_equivalence a b c :
  ValidName (id_str a) ->
  ident_eqb a a = true /\
  (ident_eqb a b = true -> ident_eqb b a = true) /\
  (ident_eqb a b = true -> ident_eqb b c = true -> ident_eqb a c = true).
Proof.
  intros Ha. repeat split.
  - apply ident_eqb_refl. now apply valid_ascii.
  - now rewrite ident_eqb_sym.
  - apply ident_eqb_trans.
Qed.

Lemma integer_content z :
  exists d, into_stream (CInt z) = SContent (Some d) /\
            SignedNumeral z (display_event (Data d)) /\ Inert (display_event (Data d)).
Proof.
  eexists. split; [reflexivity|]. split; [apply decimal_z_numeral|].
  change (Inert (decimal_z z)).
  assert (L : forall c, In c (decimal_z z) -> c <> 60 /\ c <> 62 /\ c <> 34 /\ c <> 38).
  { intros c Hc. apply decimal_z_chars in Hc. unfold IsDigit in Hc. lia. }
  split.
  - intros c Hc. apply L in Hc. tauto.
  - intros pre post E. exfalso. destruct (L 38) as (_ & _ & _ & H); [|congruence].
    rewrite E. apply in_or_app. right. now left.
Qed.

(** ** Arguments *)

Lemma value_argument_inert name s :
  exists r, display_attribute (Attribute name (Some (Api.into_value (Api.VAStatic s))))
              = id_str name ++ [61; 34] ++ r ++ [34] /\ Inert r.
Proof. exact (static_value_inert name s). Qed.
Lemma value_argument_decodes s s' :
  Decodes (enc_str (Api.into_value (Api.VAStatic s))) s' <-> s' = s.
Proof. exact (static_decodes s s'). Qed.
Lemma value_argument_number z : SignedNumeral z (enc_str (Api.into_value (Api.VAInt z))).
Proof. exact (decimal_z_numeral z). Qed.
Lemma name_argument s :
  (forall i, Api.into_identifier (Api.IAStatic s) = inl i <-> ValidName s /\ i = Ident (StaticStr s)) /\
  (forall e, Api.into_identifier (Api.IAStatic s) = inr e <-> NameError s e).
Proof.
  split; intros x; [|apply (ident_error_iff s x)].
  change (Api.into_identifier (Api.IAStatic s)) with (ident_from_static_str s).
  assert (forall i, ident_from_static_str s = inl i -> i = Ident (StaticStr s)) as Hi.
  { intros i H. pose proof (ident_text s i (or_intror H)) as Ht.
    unfold ident_from_static_str in H. destruct (validate s); [|discriminate]. injection H as <-.
    cbn in Ht. now subst. }
  split.
  - intros H. split; [apply (proj2 (ident_accepted_iff s)); eauto|auto].
  - intros [H ->]. apply (proj2 (ident_accepted_iff s)) in H as [i H]. rewrite H. f_equal. auto.
Qed.
