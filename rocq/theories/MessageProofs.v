(** Proofs about the messages of errors. *)
From Coq Require Import String List NArith Arith Bool Lia.
Import ListNotations.
From Verif Require Import Text Event Input Parse Selector Machine Template Messages.
From Verif Require Api.
From Verif Require Import SpecText SpecAttr SpecLocation SpecParse SpecMessages TextProofs LocationProofs
  ParseProofs9.
Local Open Scope nat_scope.

(** ** Splitting texts *)

Lemma span_unique {A} (P : A -> Prop) a b x y :
  Forall P a -> Forall P b ->
  (match x with [] => True | c :: _ => ~ P c end) ->
  (match y with [] => True | c :: _ => ~ P c end) ->
  a ++ x = b ++ y -> a = b /\ x = y.
Proof.
  intros Ha. revert b. induction Ha as [|c a Hc Ha IH]; intros b Hb Hx Hy E; destruct Hb as [|d b Hd Hb].
  - auto.
  - simpl in E. subst x. contradiction.
  - simpl in E. subst y. contradiction.
  - injection E as -> E. destruct (IH b Hb Hx Hy E) as [-> ->]. auto.
Qed.
Lemma span_unique_r {A} (P : A -> Prop) a b x y :
  Forall P a -> Forall P b ->
  (match rev x with [] => True | c :: _ => ~ P c end) ->
  (match rev y with [] => True | c :: _ => ~ P c end) ->
  x ++ a = y ++ b -> x = y /\ a = b.
Proof.
  intros Ha Hb Hx Hy E. apply (f_equal (@rev A)) in E. rewrite !rev_app_distr in E.
  destruct (span_unique P (rev a) (rev b) (rev x) (rev y)) as [E1 E2]; auto using Forall_rev.
  split; [rewrite <- (rev_involutive x), E2 | rewrite <- (rev_involutive a), E1]; apply rev_involutive.
Qed.
Lemma numeral_inj n m s : Numeral n s -> Numeral m s -> n = m.
Proof. intros (_ & _ & <- & _) (_ & _ & <- & _). reflexivity. Qed.
Lemma display_nat_numeral n : Numeral (N.of_nat n) (display_nat n).
Proof. apply decimal_numeral. Qed.
Lemma display_nat_inj n m : display_nat n = display_nat m -> n = m.
Proof.
  intros E. apply Nat2N.inj. eapply numeral_inj; [apply display_nat_numeral|].
  rewrite E. apply display_nat_numeral.
Qed.
Lemma display_nat_digits n : Forall IsDigit (display_nat n).
Proof. exact (proj1 (proj2 (display_nat_numeral n))). Qed.

Lemma number_prefix n m x y :
  (match x with [] => True | c :: _ => ~ IsDigit c end) ->
  (match y with [] => True | c :: _ => ~ IsDigit c end) ->
  display_nat n ++ x = display_nat m ++ y -> n = m /\ x = y.
Proof.
  intros Hx Hy E. destruct (span_unique IsDigit _ _ x y (display_nat_digits n) (display_nat_digits m) Hx Hy E)
    as [E1 ->]. auto using display_nat_inj.
Qed.
Lemma number_suffix n m x y :
  (match rev x with [] => True | c :: _ => ~ IsDigit c end) ->
  (match rev y with [] => True | c :: _ => ~ IsDigit c end) ->
  x ++ display_nat n = y ++ display_nat m -> n = m /\ x = y.
Proof.
  intros Hx Hy E. destruct (span_unique_r IsDigit _ _ x y (display_nat_digits n) (display_nat_digits m) Hx Hy E)
    as [-> E1]. auto using display_nat_inj.
Qed.
Ltac not_digit := hnf; intros [A B]; first [now apply A | now apply B].

Lemma location_prefix l l' x y :
  display_location l ++ x = display_location l' ++ y -> l = l' /\ x = y.
Proof.
  destruct l as [a b c], l' as [a' b' c']. unfold display_location. cbn [line column offset].
  rewrite <- !app_assoc. intros E. apply app_inv_head in E.
  apply number_prefix in E; [|not_digit..]. destruct E as [-> E]. apply app_inv_head in E.
  apply number_prefix in E; [|not_digit..]. destruct E as [-> E]. apply app_inv_head in E.
  apply number_prefix in E; [|not_digit..]. destruct E as [-> E]. apply app_inv_head in E. auto.
Qed.
Lemma location_suffix l l' x y :
  x ++ display_location l = y ++ display_location l' -> l = l' /\ x = y.
Proof.
  destruct l as [a b c], l' as [a' b' c']. unfold display_location. cbn [line column offset].
  assert (R : forall (u v : str), match rev (u ++ v) with [] => True | c :: _ => ~ IsDigit c end <->
    match rev v ++ rev u with [] => True | c :: _ => ~ IsDigit c end)
    by (intros; now rewrite rev_app_distr).
  rewrite !app_assoc. intros E. apply app_inv_tail in E.
  apply number_suffix in E; [|apply R; not_digit..]. destruct E as [-> E]. apply app_inv_tail in E.
  apply number_suffix in E; [|apply R; not_digit..]. destruct E as [-> E]. apply app_inv_tail in E.
  apply number_suffix in E; [|apply R; not_digit..]. destruct E as [-> E]. apply app_inv_tail in E.
  auto.
Qed.
Lemma location_text l : LocationText l (display_location l).
Proof.
  exists (display_nat (line l)), (display_nat (column l)), (display_nat (offset l)).
  repeat split; try apply display_nat_numeral.
Qed.

(** ** Names in parse errors contain no apostrophes *)

Definition Plain (n : str) : Prop := Forall (fun c => c <> 39%N) n.
Definition PlainError (e : parse_error) : Prop :=
  match e with
  | ExpectedOpeningTagClose t _ | ExpectedClosingTagClose t _
  | StackLimitExceeded t _ _ | UnexpectedClosingTag t _ => Plain t
  | InvalidAttributeValue _ t a | UnclosedAttributeValue _ t a => Plain t /\ Plain a
  | MissingClosingTags inner others => Plain (fst inner) /\ Forall (fun o => Plain (fst o)) others
  | MismatchedClosingTag t _ u _ => Plain t /\ Plain u
  | _ => True
  end.

Lemma word_plain w r : Word w r -> Plain w.
Proof.
  intros (_ & H & _). apply Forall_forall. intros c Hc ->. apply (H _ Hc).
  unfold Delimiter. simpl. tauto.
Qed.
Lemma name_plain n r : Name n r -> Plain n.
Proof. intros [H _]. exact (word_plain _ _ H). Qed.
Lemma tag_start_plain s n a r : TagStart s n a r -> Plain n.
Proof. intros (_ & _ & w & w' & s' & _ & _ & H & _). exact (name_plain _ _ H). Qed.
Lemma end_tag_plain s n : EndTag s n -> Plain n.
Proof. intros (w & w' & w'' & _ & _ & _ & _ & H). exact (name_plain _ _ H). Qed.
Lemma opening_plain s t a : Spells s (OpeningTag t a) -> Plain (id_str t).
Proof.
  intros H. inversion H; subst. match goal with H : Tag _ _ _ _ |- _ => destruct H as (r & H & _) end.
  eapply tag_start_plain. eassumption.
Qed.
Lemma reads_plain limit s pre rest m st evs : Reads limit s pre rest m st evs ->
  Forall (fun entry => Plain (snd entry)) st.
Proof.
  induction 1 as [|pre slice rest m m' st st' evs ev HR IH Hne HI HN]; [constructor|].
  destruct ev; simpl in HN; try (subst st'; exact IH).
  - destruct HN as [_ ->]. constructor; [|exact IH]. simpl.
    inversion HI; subst. eapply opening_plain. eassumption.
  - destruct HN as (p & n & -> & _). now inversion IH.
Qed.
Lemma fault_plain limit s pre rest m st evs e :
  Reads limit s pre rest m st evs -> Fault limit pre rest st e -> PlainError e.
Proof.
  intros HR HF. pose proof (reads_plain _ _ _ _ _ _ _ HR) as HP.
  destruct e; simpl in *; auto.
  - destruct HF as (a & r & _ & _ & [(H & _)|(w & H & _)]); eauto using tag_start_plain.
  - destruct HF as (w & w' & w'' & r & _ & _ & _ & _ & H & _). eauto using name_plain.
  - destruct HF as (a & w & w' & r & H & _ & H' & _). eauto using tag_start_plain, name_plain.
  - destruct HF as (a & w & w' & r & H & _ & H' & _). eauto using tag_start_plain, name_plain.
  - destruct HF as (_ & top & below & -> & [E _] & HF). inversion HP as [|? ? Ht Hb]; subst.
    split; [now rewrite E|]. apply Forall_rev in Hb. revert Hb.
    induction HF as [|x y xs ys [E' _] HF IH]; intros Hb; [constructor|].
    inversion Hb; subst. constructor; [now rewrite E'|]. auto.
  - destruct HF as (_ & _ & _ & slice & r & tg & a & _ & H & <-). eauto using opening_plain.
  - destruct HF as (_ & _ & slice & r & _ & H). eauto using end_tag_plain.
  - destruct HF as (_ & p & st' & -> & _ & slice & r & _ & H & _). inversion HP; subst.
    eauto using end_tag_plain.
Qed.
Lemma error_plain s o e : from_str s o = TErr (ParseError e) -> PlainError e.
Proof.
  intros H. apply from_str_fault in H. destruct H as (pre & rest & m & st & evs & _ & HR & HF).
  eauto using fault_plain.
Qed.

(** ** Parse errors *)

Lemma name_prefix n n' (x y : str) : Plain n -> Plain n' -> n ++ 39%N :: x = n' ++ 39%N :: y -> n = n' /\ x = y.
Proof.
  intros Hn Hn' E. apply (span_unique (fun c => c <> 39%N)) in E; auto; try (intros H; now apply H).
  destruct E as [-> E]. injection E as ->. auto.
Qed.
Lemma name_prefix_lit n n' (a : string) (x y : str) : Plain n -> Plain n' ->
  n ++ lit (String (Ascii.ascii_of_nat 39) a) ++ x = n' ++ lit (String (Ascii.ascii_of_nat 39) a) ++ y -> n = n' /\ x = y.
Proof.
  intros Hn Hn' E. change (lit (String (Ascii.ascii_of_nat 39) a)) with (39%N :: lit a) in E.
  rewrite <- !app_comm_cons in E. apply name_prefix in E; auto. destruct E as [-> E].
  apply app_inv_head in E. auto.
Qed.
Lemma location_end l l' : display_location l = display_location l' -> l = l'.
Proof. intros E. apply (location_suffix l l' [] []) in E. tauto. Qed.

Lemma others_names i o o' : Forall (fun o => Plain (fst o)) o -> Forall (fun o => Plain (fst o)) o' ->
  display_others i o ++ lit ")" = display_others i o' ++ lit ")" -> map fst o = map fst o'.
Proof.
  intros H. revert i o'. induction H as [|[t l] o Ht Ho IH]; intros i o' H' E; destruct H' as [|[t' l'] o' Ht' Ho'].
  - reflexivity.
  - simpl in E. destruct (i =? 0); discriminate.
  - simpl in E. destruct (i =? 0); discriminate.
  - cbn [display_others] in E. rewrite <- !app_assoc in E. apply app_inv_head in E.
    apply app_inv_head in E. apply name_prefix_lit in E; auto. destruct E as [-> E].
    simpl. f_equal. eauto.
Qed.
Lemma others_display i o o' : map fst o = map fst o' -> display_others i o = display_others i o'.
Proof.
  revert i o'. induction o as [|[t l] o IH]; intros i [|[t' l'] o'] E; try discriminate; [reflexivity|].
  simpl in E. injection E as -> E. simpl. now rewrite (IH _ _ E).
Qed.

Lemma report_display e e' : SameParseReport e e' -> display_parse_error e = display_parse_error e'.
Proof.
  intros H. destruct H; try reflexivity; unfold display_parse_error.
  - f_equal. change (lit ".") with [46%N]. rewrite !app_assoc. do 2 f_equal.
    now rewrite <- !app_assoc.
  - f_equal. change (lit ".") with [46%N]. rewrite !app_assoc. do 2 f_equal.
    now rewrite <- !app_assoc.
  - destruct inner as [t l]. do 4 f_equal.
    destruct others as [|a o], others' as [|b o']; try discriminate; auto.
    now rewrite (others_display 0 _ _ H).
Qed.

Lemma value_names t a t' a' (x y : str) : Plain t -> Plain a -> Plain t' -> Plain a' ->
  t ++ lit "." ++ a ++ lit "' at " ++ x = t' ++ lit "." ++ a' ++ lit "' at " ++ y ->
  t ++ 46%N :: a = t' ++ 46%N :: a' /\ x = y.
Proof.
  intros Ht Ha Ht' Ha' E.
  assert (forall t a, Plain t -> Plain a -> Plain (t ++ lit "." ++ a)) as HP.
  { intros u v Hu Hv. apply Forall_app. split; auto. constructor; [discriminate|auto]. }
  rewrite (app_assoc (lit ".") a), (app_assoc t), (app_assoc (lit ".") a'), (app_assoc t') in E.
  apply name_prefix_lit in E; auto.
Qed.

Lemma display_report e e' : PlainError e -> PlainError e' ->
  display_parse_error e = display_parse_error e' -> SameParseReport e e'.
Proof.
  intros He He' E.
  destruct e as [l d|l|l|t l|t l|l|l i|l|l i|l i|l t a|l t a|l|[t l] o|t l k|t l|t l u k];
    destruct e' as [l' d'|l'|l'|t' l'|t' l'|l'|l' i'|l'|l' i'|l' i'|l' t' a'|l' t' a'|l'|[t' l'] o'|t' l' k'|t' l'|t' l' u' k'];
    try discriminate E; unfold display_parse_error in E; cbn [PlainError fst] in He, He';
    apply app_inv_head in E; try (apply location_end in E; subst; constructor).
  - rewrite !app_assoc in E. apply location_suffix in E. destruct E as [-> E].
    apply app_inv_tail in E. subst. constructor.
  - apply name_prefix_lit in E; auto. destruct E as [-> E]. apply location_end in E. subst. constructor.
  - apply name_prefix_lit in E; auto. destruct E as [-> E]. apply location_end in E. subst. constructor.
  - destruct He, He'. apply value_names in E; auto. destruct E as [E E']. apply location_end in E'.
    subst. now constructor.
  - destruct He, He'. apply value_names in E; auto. destruct E as [E E']. apply location_end in E'.
    subst. now constructor.
  - destruct He as [Ht Ho], He' as [Ht' Ho']. apply name_prefix_lit in E; auto. destruct E as [-> E].
    apply location_prefix in E. destruct E as [-> E]. apply PR_missing.
    destruct o as [|x o], o' as [|y o']; try discriminate; [reflexivity|].
    apply app_inv_head in E. eauto using others_names.
  - apply number_prefix in E; [|not_digit..]. destruct E as [-> E]. apply app_inv_head in E.
    apply name_prefix_lit in E; auto. destruct E as [-> E]. apply location_end in E. subst. constructor.
  - apply name_prefix_lit in E; auto. destruct E as [-> E]. apply location_end in E. subst. constructor.
  - destruct He as [Ht Hu], He' as [Ht' Hu']. apply name_prefix_lit in E; auto. destruct E as [-> E].
    apply location_prefix in E. destruct E as [-> E]. apply app_inv_head in E.
    apply name_prefix_lit in E; auto. destruct E as [-> E]. apply location_end in E. subst. constructor.
Qed.
Lemma parse_messages s o e s' o' e' :
  from_str s o = TErr (ParseError e) -> from_str s' o' = TErr (ParseError e') ->
  display_parse_error e = display_parse_error e' <-> SameParseReport e e'.
Proof. intros H H'. split; [apply display_report; eauto using error_plain|apply report_display]. Qed.

Lemma location_messages l l' m : LocationText l m -> LocationText l' m -> l = l'.
Proof.
  intros (a & b & c & Ha & Hb & Hc & ->) (a' & b' & c' & Ha' & Hb' & Hc' & E).
  destruct l as [x y z], l' as [x' y' z']. cbn [line column offset] in *.
  assert (HN : forall n n' s s' u v, Numeral (N.of_nat n) s -> Numeral (N.of_nat n') s' ->
    (match u with [] => True | c :: _ => ~ IsDigit c end) ->
    (match v with [] => True | c :: _ => ~ IsDigit c end) -> s ++ u = s' ++ v -> n = n' /\ u = v).
  { intros n n' p q u v H H' Hu Hv E'. destruct (span_unique IsDigit p q u v) as [-> ->]; auto.
    - apply H. - apply H'. - split; auto. apply Nat2N.inj. eapply numeral_inj; eauto. }
  apply app_inv_head in E. apply (HN x x') in E; auto; [|not_digit..]. destruct E as [-> E].
  apply app_inv_head in E. apply (HN y y') in E; auto; [|not_digit..]. destruct E as [-> E].
  apply app_inv_head in E. apply (HN z z') in E; auto; [|not_digit..]. destruct E as [-> E]. reflexivity.
Qed.

Lemma mismatch_always s o opening lo closing lc :
  from_str s o = TErr (ParseError (MismatchedClosingTag opening lo closing lc)) ->
  MismatchText opening lo closing lc (display_parse_error (MismatchedClosingTag opening lo closing lc)) /\
  ~ MismatchText closing lc opening lo (display_parse_error (MismatchedClosingTag opening lo closing lc)).
Proof.
  intros H. pose proof (error_plain _ _ _ H) as [Ho Hc]. split.
  - exists (display_location lo), (display_location lc). auto using location_text.
  - intros (c & d & _ & _ & E). unfold display_parse_error in E. apply app_inv_head in E.
    apply name_prefix_lit in E; auto. destruct E as [-> _].
    apply from_str_fault in H. destruct H as (pre & rest & m & st & evs & _ & _ & _ & p & st' & _ & _ & slice & r & _ & _ & H).
    apply H, same_name_refl.
Qed.
Lemma mismatch_refuted : exists s opening lo closing lc,
  from_str s (Options None None) = TErr (ParseError (MismatchedClosingTag opening lo closing lc)) /\
  ~ MismatchText closing lc opening lo (display_parse_error (MismatchedClosingTag opening lo closing lc)).
Proof.
  exists (lit "<a></b>"). do 4 eexists. split; [vm_compute; reflexivity|].
  apply (mismatch_always (lit "<a></b>") (Options None None)). vm_compute. reflexivity.
Qed.
Lemma closing_message_refuted : exists s s' l i j,
  from_str s (Options None None) = TErr (ParseError (InvalidClosingTagIdentifier l i)) /\
  from_str s' (Options None None) = TErr (ParseError (InvalidOpeningTagIdentifier l j)) /\
  display_parse_error (InvalidClosingTagIdentifier l i)
  = display_parse_error (InvalidOpeningTagIdentifier l j).
Proof.
  exists (lit "<a></a;>"), (lit "<a>x<a;>"). do 3 eexists. split; [vm_compute; reflexivity|].
  split; vm_compute; reflexivity.
Qed.
Lemma value_message_refuted : exists s s' l t a t' a',
  from_str s (Options None None) = TErr (ParseError (InvalidAttributeValue l t a)) /\
  from_str s' (Options None None) = TErr (ParseError (InvalidAttributeValue l t' a')) /\
  (t <> t' /\ a <> a') /\
  display_parse_error (InvalidAttributeValue l t a) = display_parse_error (InvalidAttributeValue l t' a').
Proof.
  exists (lit "<a.b c=x>"), (lit "<a b.c=x>"). do 5 eexists. split; [vm_compute; reflexivity|].
  split; [vm_compute; reflexivity|]. split; [split; discriminate|]. vm_compute. reflexivity.
Qed.

(** ** The other errors *)

Lemma input_messages e e' : display_input_error e = display_input_error e' <-> SameInputReport e e'.
Proof.
  destruct e, e'; (split; [intros E|intros H]); try discriminate E; try contradiction H; try exact I; try reflexivity.
  - apply app_inv_head in E. apply number_prefix in E; [|not_digit..]. exact (proj1 E).
  - simpl in H. now subst.
Qed.
Lemma file_messages e e' : display_file_error e = display_file_error e' <-> SameFileReport e e'.
Proof.
  destruct e, e'; (split; [intros E|intros H]); try discriminate E; try contradiction H;
    unfold display_file_error in *; cbn [SameFileReport] in *; try (subst; reflexivity);
    rewrite !app_assoc in E; apply app_inv_tail in E; apply app_inv_head in E; exact E.
Qed.
Lemma stream_messages e e' : display_stream_error e = display_stream_error e' <-> SameStreamReport e e'.
Proof. destruct e, e'; simpl; (split; [intros E|intros H]); try discriminate; try contradiction; auto. Qed.
Lemma selector_messages e e' : display_selector_error e = display_selector_error e' <-> SameSelectorReport e e'.
Proof. destruct e, e'; simpl; (split; [intros E|intros H]); try discriminate; try contradiction; auto. Qed.
Lemma classes_messages e e' : display_classes_error e = display_classes_error e' <-> SameClassesReport e e'.
Proof.
  destruct e, e'; (split; [intros E|intros H]); try discriminate E; try contradiction H; try exact I; try reflexivity.
  - apply app_inv_head in E. now apply display_nat_inj.
  - simpl in H. now subst.
Qed.
Lemma static_messages e e' : display_static_error e = display_static_error e' <-> SameStaticReport e e'.
Proof.
  destruct e, e'; (split; [intros E|intros H]); try discriminate E; try contradiction H; try exact I; try reflexivity.
  - apply app_inv_head in E. apply number_prefix in E; [|not_digit..]. exact (proj1 E).
  - simpl in H. now subst.
Qed.
Lemma found_messages a b : found a = found b <-> SameFound a b.
Proof.
  destruct a as [a|], b as [b|]; try destruct a; try destruct b; simpl;
    (split; [intros E|intros H]); try discriminate; try contradiction; auto.
Qed.
Lemma valid_no_comma n : ValidName n -> Forall (fun c => c <> 44%N) n.
Proof.
  intros [_ H]. apply Forall_forall. intros c Hc ->. destruct (H _ Hc) as (_ & _ & H'). apply H'.
  unfold ForbiddenChar. simpl. tauto.
Qed.
Lemma malformed_messages e e' : NamesTag e -> NamesTag e' ->
  display_malformed e = display_malformed e' <-> SameMalformedReport e e'.
Proof.
  destruct e as [t|a|a t], e' as [t'|a'|a' t']; intros He He'; (split; [intros E|intros H]);
    try discriminate E; try contradiction H; unfold display_malformed in *; cbn [SameMalformedReport NamesTag] in *.
  - apply app_inv_head in E. now apply app_inv_tail in E.
  - now rewrite H.
  - apply app_inv_head in E. now apply found_messages.
  - apply found_messages in H. now rewrite H.
  - apply app_inv_head in E. apply (span_unique (fun c => c <> 44%N)) in E;
      auto using valid_no_comma; try (intros X; now apply X).
    destruct E as [E E']. apply app_inv_head in E'. split; auto. now apply found_messages.
  - destruct H as [H H']. apply found_messages in H. now rewrite H, H'.
Qed.

Definition small : list char := map N.of_nat (seq 0 128).
Lemma small_in c : (c < 128)%N -> In c small.
Proof.
  intros H. unfold small. rewrite <- (N2Nat.id c). apply in_map. apply in_seq. lia.
Qed.
Lemma escapes_differ :
  forallb (fun c => forallb (fun d => (c =? d)%N || negb (str_eqb (escape_default c) (escape_default d)))
                      small) small = true.
Proof. vm_compute. reflexivity. Qed.
Lemma escape_inj c d : (c < 128)%N -> (d < 128)%N -> escape_default c = escape_default d -> c = d.
Proof.
  intros Hc Hd E. pose proof escapes_differ as H. rewrite forallb_forall in H.
  specialize (H c (small_in c Hc)). rewrite forallb_forall in H. specialize (H d (small_in d Hd)).
  apply orb_true_iff in H. destruct H as [H|H]; [now apply N.eqb_eq|].
  rewrite E in H. rewrite str_eqb_refl in H. discriminate.
Qed.
Lemma name_error_small s e c : NameError s e -> e = IdWhitespace c \/ e = IdForbidden c -> (c < 128)%N.
Proof.
  intros H [-> | ->]; simpl in H.
  - destruct H as [H (p & q & -> & _)]. apply H. apply in_or_app. right. now left.
  - destruct H as (H & _ & (p & q & -> & _)). apply H. apply in_or_app. right. now left.
Qed.
Lemma identifier_messages s e s' e' : NameError s e -> NameError s' e' ->
  display_identifier_error e = display_identifier_error e' -> e = e'.
Proof.
  intros H H' E.
  destruct e as [| |c|c], e' as [| |c'|c']; try discriminate E; try reflexivity;
    unfold display_identifier_error in E; apply app_inv_head in E; apply app_inv_tail in E;
    apply escape_inj in E; subst; eauto using name_error_small.
Qed.
Lemma element_message : exists s i, ~ ValidName s /\
  (forall n p, exists h, with_transformed_element n (Api.into_identifier (Api.IAStatic s)) p
                         = Done h (inr (SEIdentifier i))) /\
  display_stream_error (SEIdentifier i) = lit "Invalid attribute identifier".
Proof.
  exists (lit "a b"), (IdWhitespace 32%N). split; [|split].
  - intros [_ H]. destruct (H 32%N) as (_ & H' & _); [simpl; tauto|]. apply H'. unfold AsciiSpace. simpl; tauto.
  - intros n p. eexists. reflexivity.
  - reflexivity.
Qed.

(** ** Causes *)
Fixpoint nth_cause (n : nat) (e : any_error) : option any_error :=
  match n with
  | O => Some e
  | S n => match cause e with Some e => nth_cause n e | None => None end
  end.
Definition rank (e : any_error) : nat :=
  match e with
  | ErrStream _ => 4 | ErrFile _ => 3 | ErrInput _ => 2 | ErrSelector _ => 2
  | ErrParse _ | ErrClasses _ | ErrStatic _ | ErrAssertion _ | ErrId _ | ErrTag _ | ErrClass _ => 1
  | ErrMalformed _ | ErrIdentifier _ | ErrIo _ | ErrUtf8 _ => 0
  end.
Lemma cause_rank e e' : cause e = Some e' -> rank e' < rank e.
Proof.
  destruct e as [x|x|x|x|x|x|x|x|x|x|x|x|x|x|x]; try destruct x; simpl; intros H;
    first [discriminate | injection H as <-; simpl; lia].
Qed.
Lemma causes_end e : nth_cause 5 e = None.
Proof.
  assert (H : forall n e, rank e < n -> nth_cause n e = None).
  { clear. induction n as [|n IH]; intros e H; simpl; [lia|].
    destruct (cause e) as [e'|] eqn:E; auto. apply IH. apply cause_rank in E. lia. }
  apply H. destruct e; simpl; lia.
Qed.

Lemma location_message l : LocationText l (display_location l) /\
  forall l' m, LocationText l m -> LocationText l' m -> l' = l.
Proof. split; [apply location_text|]. intros l' m H H'. now apply (location_messages l' l m). Qed.
Lemma whitespace_message : exists i, NameError [97; 11; 98]%N i /\
  display_identifier_error i = lit "Identifier contains whitespace character '\u{b}'".
Proof.
  exists (IdWhitespace 11%N). split; [|reflexivity]. split.
  - intros x [<-|[<-|[<-|[]]]]; reflexivity.
  - exists [97%N], [98%N]. split; [reflexivity|]. split; [left; split; discriminate|].
    intros x [<-|[]] [[_ H]|H]; [now apply H|discriminate].
Qed.
