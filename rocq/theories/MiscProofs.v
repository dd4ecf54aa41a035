(** Proofs for the properties of locations, files and equality. *)
From Coq Require Import String List NArith Arith Bool Lia.
Import ListNotations.
From Verif Require Import Text Event Input Parse Selector Machine Template
  SpecText SpecAttr SpecSelect SpecLocation SpecFile TextProofs LocationProofs FileProofs.
Local Open Scope nat_scope.

(** ** Files *)

Lemma file_success path reads o events : Nonempty reads ->
  from_file path (inl reads) o = TOk events ->
  exists s chunks, reads = map inl chunks /\ ScalarStr s /\ concat chunks = utf8 s /\
                   from_str s o = TOk events.
Proof.
  intros Hne. unfold from_file.
  destruct (read_loop _ _ _ _ _ _) as [[s|e]|] eqn:E; [|discriminate|discriminate].
  apply read_loop_ok in E; auto.
  - destruct E as (Hs & _ & chunks & -> & Hu). intros H. exists s, chunks.
    repeat split; auto. destruct (from_str s o); congruence.
  - intros c [].
  - unfold over. destruct (max_input_len o); auto.
Qed.

Lemma schedule_size_ge reads : (length reads < schedule_size reads)%nat.
Proof. induction reads as [|[bs|code] reads IH]; simpl; lia. Qed.

Lemma file_whole path pieces o : (forall p, In p pieces -> p <> [] /\ ScalarStr p) ->
  from_file path (inl (map (fun p => inl (utf8 p)) pieces)) o
  = in_file path (from_str (concat pieces) o).
Proof.
  intros Hp. unfold from_file. rewrite read_loop_whole; auto.
  - simpl app. unfold over, from_str. destruct (max_input_len o) as [l|].
    + destruct (Nat.ltb l (str_len (concat pieces))) eqn:El; cbn [in_file].
      * reflexivity.
      * rewrite El. destruct (parse_events _ _); reflexivity.
    + destruct (parse_events _ _); reflexivity.
  - unfold over. destruct (max_input_len o); auto.
  - eapply Nat.le_lt_trans; [|apply schedule_size_ge]. now rewrite map_length.
Qed.

Lemma utf8_ascii s : is_ascii s = true -> utf8 s = s.
Proof.
  induction s as [|c s IH]; intros H; [reflexivity|]. unfold is_ascii in *. cbn [forallb] in H.
  apply andb_true_iff in H. destruct H as [H1 H2]. unfold char_is_ascii in H1.
  unfold utf8. cbn [flat_map]. fold (utf8 s). rewrite IH by auto. unfold utf8_char. now rewrite H1.
Qed.
Lemma ascii_scalar s : is_ascii s = true -> ScalarStr s.
Proof.
  intros H c Hc. left. apply is_ascii_spec with (c := c) in H; auto. lia.
Qed.
Lemma file_ascii path chunks o : (forall c, In c chunks -> c <> [] /\ is_ascii c = true) ->
  from_file path (inl (map inl chunks)) o = in_file path (from_str (concat chunks) o).
Proof.
  intros H. rewrite <- file_whole.
  - do 2 f_equal. apply map_ext_in. intros c Hc. f_equal. symmetry. now apply utf8_ascii, H.
  - intros p Hp. destruct (H p Hp). auto using ascii_scalar.
Qed.

Lemma file_schedule_irrelevant path path' reads reads' o events events' :
  Nonempty reads -> Nonempty reads' ->
  (exists chunks chunks', reads = map inl chunks /\ reads' = map inl chunks' /\
                          concat chunks = concat chunks') ->
  from_file path (inl reads) o = TOk events ->
  from_file path' (inl reads') o = TOk events' -> events = events'.
Proof.
  intros Hn Hn' (c & c' & -> & -> & Hc) H H'.
  apply file_success in H; auto. apply file_success in H'; auto.
  destruct H as (s & d & E & Hs & Hd & H). destruct H' as (s' & d' & E' & Hs' & Hd' & H').
  assert (Hinj : forall a b : list (list N), map (fun x => inl x : list byte + N) a = map inl b -> a = b).
  { clear. induction a as [|x a IH]; intros [|y b]; simpl; try discriminate; auto.
    intros [= -> E]. f_equal. auto. }
  apply Hinj in E. apply Hinj in E'. subst d d'.
  assert (s = s') as <- by (apply utf8_inj; auto; rewrite <- Hd, <- Hd'; exact Hc). congruence.
Qed.

Lemma file_errors path opened o e : from_file path opened o = TErr e ->
  match opened with
  | inr code => e = FileOpen path code
  | inl reads => Nonempty reads ->
      (exists code, In (inr code) reads /\ e = FileRead path code) \/
      e = FileDecode path 0 \/
      (exists l, max_input_len o = Some l /\ e = FileInput path (LengthLimitExceeded l)) \/
      (exists s chunks e', reads = map inl chunks /\ concat chunks = utf8 s /\
                           from_str s o = TErr e' /\ e = FileInput path e')
  end.
Proof.
  unfold from_file. destruct opened as [reads|code]; [|now intros [= <-]].
  destruct (read_loop _ _ _ _ _ _) as [[s|e']|] eqn:E; [| |discriminate].
  - intros H Hne. apply read_loop_ok in E; auto.
    + destruct E as (Hs & _ & chunks & -> & Hu). right. right. right.
      destruct (from_str s o) as [|e'| |] eqn:Es; try discriminate. injection H as <-.
      exists s, chunks, e'. auto.
    + intros c [].
    + unfold over. destruct (max_input_len o); auto.
  - intros [= <-] Hne. apply read_loop_err in E; auto.
    destruct E as [?|[?|?]]; auto.
Qed.

Lemma file_no_fuel path opened o : (forall s, from_str s o <> TFuel) ->
  from_file path opened o <> TFuel.
Proof.
  intros Hf. unfold from_file. destruct opened as [reads|code]; [|discriminate].
  destruct (read_loop _ _ _ _ _ _) as [[s|e]|] eqn:E.
  - specialize (Hf s). destruct (from_str s o); congruence.
  - discriminate.
  - exfalso. eapply read_loop_fuel; [|exact E]. simpl. lia.
Qed.

Definition split_file : list (list byte) := [[195]; [169]]%N.
Lemma file_split_refuted : exists s chunks o path events e,
  ScalarStr s /\ concat chunks = utf8 s /\ Nonempty (map inl chunks) /\
  from_str s o = TOk events /\ from_file path (inl (map inl chunks)) o = TErr e.
Proof.
  exists [233%N], split_file, (Options None None), (lit "f"). eexists _, _.
  split; [intros c [<-|[]]; left; reflexivity|].
  split; [reflexivity|].
  split; [intros bs [E|[E|[]]]; injection E as <-; discriminate|].
  split; vm_compute; reflexivity.
Qed.

(** ** Template equality *)

Definition ValidTemplate (t : list event) : Prop := forall ev, In ev t -> ValidEvent ev.

Section Equiv.
  Context {A : Type} (eqb : A -> A -> bool).
  Lemma list_eqb_refl l : (forall x, In x l -> eqb x x = true) -> list_eqb eqb l l = true.
  Proof.
    induction l as [|x l IH]; intros H; simpl; auto. rewrite H by now left. simpl.
    apply IH. intros y Hy. apply H. now right.
  Qed.
  Lemma list_eqb_sym a b : (forall x y, eqb x y = eqb y x) -> list_eqb eqb a b = list_eqb eqb b a.
  Proof.
    intros H. revert b; induction a as [|x a IH]; intros [|y b]; simpl; auto.
    now rewrite H, IH.
  Qed.
  Lemma list_eqb_trans a b c :
    (forall x y z, eqb x y = true -> eqb y z = true -> eqb x z = true) ->
    list_eqb eqb a b = true -> list_eqb eqb b c = true -> list_eqb eqb a c = true.
  Proof.
    intros H. revert b c; induction a as [|x a IH]; intros [|y b] [|z c]; simpl; auto; try discriminate.
    rewrite !andb_true_iff. intros [H1 H2] [H3 H4]. split; eauto.
  Qed.
End Equiv.

Lemma encoded_eqb_eq a b : encoded_eqb a b = true <-> a = b.
Proof.
  unfold encoded_eqb, deferred_eqb. destruct a as [[x|x]], b as [[y|y]]; simpl;
    rewrite ?str_eqb_spec; split; congruence.
Qed.
Lemma option_enc_eq a b : option_eqb encoded_eqb a b = true <-> a = b.
Proof.
  destruct a, b; simpl; rewrite ?encoded_eqb_eq; split; congruence.
Qed.

Lemma attribute_eqb_refl a : ValidName (id_str (a_name a)) -> attribute_eqb a a = true.
Proof.
  intros H. unfold attribute_eqb. rewrite ident_eqb_refl by now apply valid_ascii.
  now apply option_enc_eq.
Qed.
Lemma encoded_eqb_sym a b : encoded_eqb a b = encoded_eqb b a.
Proof.
  apply eq_true_iff_eq. rewrite !encoded_eqb_eq. split; congruence.
Qed.
Lemma attribute_eqb_sym a b : attribute_eqb a b = attribute_eqb b a.
Proof.
  unfold attribute_eqb. rewrite ident_eqb_sym. f_equal.
  destruct (a_value a), (a_value b); simpl; auto. apply encoded_eqb_sym.
Qed.
Lemma attribute_eqb_trans a b c : attribute_eqb a b = true -> attribute_eqb b c = true ->
  attribute_eqb a c = true.
Proof.
  unfold attribute_eqb. rewrite !andb_true_iff, !option_enc_eq. intros [H1 H2] [H3 H4].
  split; [eapply ident_eqb_trans; eauto|congruence].
Qed.

Lemma event_eqb_refl e : ValidEvent e -> event_eqb e e = true.
Proof.
  destruct e; simpl; auto; try (intros _; now apply encoded_eqb_eq);
    try (intros [H1 H2]; rewrite ident_eqb_refl by (now apply valid_ascii); simpl;
         apply list_eqb_refl; intros a Ha; apply attribute_eqb_refl; auto).
  intros H. apply ident_eqb_refl. now apply valid_ascii.
Qed.
Lemma event_eqb_sym a b : event_eqb a b = event_eqb b a.
Proof.
  destruct a, b; simpl; auto; try apply encoded_eqb_sym; try apply ident_eqb_sym;
    unfold attributes_eqb; rewrite ident_eqb_sym; f_equal; apply list_eqb_sym, attribute_eqb_sym.
Qed.
Lemma event_eqb_trans a b c : event_eqb a b = true -> event_eqb b c = true -> event_eqb a c = true.
Proof.
  destruct a, b; simpl; try discriminate; destruct c; simpl; try discriminate; auto;
    rewrite ?encoded_eqb_eq, ?andb_true_iff; try congruence;
    try (intros [H1 H2] [H3 H4]; split;
         [eapply ident_eqb_trans; eauto|eapply list_eqb_trans; eauto using attribute_eqb_trans]).
  apply ident_eqb_trans.
Qed.

Lemma template_eqb_refl t : ValidTemplate t -> template_eqb t t = true.
Proof. intros H. apply list_eqb_refl. intros e He. apply event_eqb_refl. auto. Qed.
Lemma template_eqb_sym a b : template_eqb a b = template_eqb b a.
Proof. apply list_eqb_sym, event_eqb_sym. Qed.
Lemma template_eqb_trans a b c : template_eqb a b = true -> template_eqb b c = true ->
  template_eqb a c = true.
Proof. apply list_eqb_trans, event_eqb_trans. Qed.

(** rendering *)
Lemma same_name_app a b c d : SameName a b -> SameName c d -> SameName (a ++ c) (b ++ d).
Proof. unfold SameName. apply Forall2_app. Qed.
Lemma ident_eqb_same a b : ident_eqb a b = true -> SameName (id_str a) (id_str b).
Proof. unfold ident_eqb. rewrite identifier_eq_spec. tauto. Qed.

Lemma attribute_eqb_display a b : attribute_eqb a b = true ->
  SameName (display_attribute a) (display_attribute b).
Proof.
  unfold attribute_eqb. rewrite andb_true_iff, option_enc_eq. intros [H1 H2].
  unfold display_attribute. rewrite H2. apply same_name_app; [now apply ident_eqb_same|apply same_name_refl].
Qed.
Lemma attributes_eqb_display f a b : attributes_eqb a b = true ->
  SameName (display_attributes_loop f a) (display_attributes_loop f b).
Proof.
  revert f b; induction a as [|x a IH]; intros f [|y b]; simpl; try discriminate.
  - intros _. apply same_name_refl.
  - unfold attributes_eqb. simpl. rewrite andb_true_iff. intros [H1 H2].
    apply same_name_app; [apply same_name_refl|].
    apply same_name_app; [now apply attribute_eqb_display|apply IH; exact H2].
Qed.
Lemma display_tag_same t a u b : ident_eqb t u = true -> attributes_eqb a b = true ->
  SameName (display_tag t a) (display_tag u b).
Proof.
  intros H1 H2. unfold display_tag. apply same_name_app; [now apply ident_eqb_same|].
  pose proof (attributes_eqb_display true _ _ H2) as H.
  destruct a, b; simpl in H2; try discriminate; [apply same_name_refl|].
  apply same_name_app; [apply same_name_refl|exact H].
Qed.
Lemma event_eqb_display a b : event_eqb a b = true -> SameName (display_event a) (display_event b).
Proof.
  destruct a, b; cbn [event_eqb]; try discriminate; rewrite ?encoded_eqb_eq, ?andb_true_iff;
    try (intros; subst; apply same_name_refl); unfold display_event.
  - intros [H1 H2]. apply same_name_app; [apply same_name_refl|].
    apply same_name_app; [now apply display_tag_same|apply same_name_refl].
  - intros H1. apply same_name_app; [apply same_name_refl|].
    apply same_name_app; [now apply ident_eqb_same|apply same_name_refl].
  - intros [H1 H2]. apply same_name_app; [apply same_name_refl|].
    apply same_name_app; [now apply display_tag_same|apply same_name_refl].
  - intros [H1 H2]. apply same_name_app; [apply same_name_refl|].
    apply same_name_app; [now apply display_tag_same|apply same_name_refl].
Qed.
Lemma template_eqb_display a b : template_eqb a b = true ->
  SameName (display_events a) (display_events b).
Proof.
  revert b; induction a as [|x a IH]; intros [|y b]; unfold template_eqb; simpl; try discriminate.
  - intros _. apply same_name_refl.
  - rewrite andb_true_iff. intros [H1 H2]. apply same_name_app; auto using event_eqb_display.
Qed.
Lemma same_rendering_unequal : exists a b, ValidTemplate a /\ ValidTemplate b /\
  display_events a = display_events b /\ template_eqb a b = false.
Proof.
  exists [Data (Encoded (StaticStr (lit "x")))], [Data (Encoded (Actual (lit "x")))].
  repeat split; intros ev [<-|[]]; exact I.
Qed.
