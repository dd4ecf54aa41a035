(** Proofs about reports: the messages of an error and of its causes. *)
From Coq Require Import String List NArith Bool Lia.
Import ListNotations.
From Verif Require Import Text Event Input Parse Selector Machine Template Messages.
From Verif Require Import SpecText SpecAttr SpecSelect SpecParse SpecMessages TextProofs SelectProofs FileProofs
  ParseProofs9 MiscProofs MessageProofs.

Local Open Scope nat_scope.

Section Reports.
Variables (io : N -> str) (utf8 : nat -> str).
Notation say := (display_error io utf8).
Notation Told := (Told say).

Lemma told_cons e l : Told e l <->
  exists t, l = say e :: t /\ match cause e with None => t = [] | Some c => Told c t end.
Proof.
  split.
  - intros [e0 H|e0 c l0 H H']; eexists; rewrite H; auto.
  - intros (t & -> & H). destruct (cause e) as [c|] eqn:E.
    + now apply T_cause with c.
    + subst. now apply T_last.
Qed.

Lemma told_total e : exists l, Told e l /\ length l <= S (rank e).
Proof.
  remember (rank e) as n eqn:E. assert (H : rank e <= n) by lia. clear E.
  revert e H. induction n as [|n IH]; intros e H.
  - exists [say e]. split; [|simpl; lia]. apply T_last. destruct (cause e) as [c|] eqn:E; auto.
    apply cause_rank in E. lia.
  - destruct (cause e) as [c|] eqn:E.
    + pose proof (cause_rank _ _ E). destruct (IH c) as (l & Hl & Hn); [lia|].
      exists (say e :: l). split; [|simpl; lia]. now apply T_cause with c.
    + exists [say e]. split; [now apply T_last|simpl; lia].
Qed.
Lemma told_det e l l' : Told e l -> Told e l' -> l = l'.
Proof.
  intros H. revert l'. induction H as [e H|e c l H H' IH]; intros l' Hl;
    apply told_cons in Hl; destruct Hl as (t & -> & Ht); rewrite H in Ht.
  - now subst.
  - now rewrite (IH t).
Qed.
Lemma report_ends e : exists l, Told e l /\ length l <= 5 /\ forall l', Told e l' -> l' = l.
Proof.
  destruct (told_total e) as (l & H & Hl). exists l. split; [auto|]. split.
  - assert (rank e <= 4) by (destruct e; simpl; lia). lia.
  - intros l' H'. now apply (told_det e).
Qed.

(** ** Errors of one type *)
Ltac told H := apply told_cons in H; cbn [cause display_error] in H;
  let t := fresh "t" in let E := fresh "E" in let R := fresh "R" in destruct H as (t & E & R).

Lemma told_identifier i j l : RealIdentifier i -> RealIdentifier j ->
  Told (ErrIdentifier i) l -> Told (ErrIdentifier j) l -> i = j.
Proof.
  intros (s & Hi) (s' & Hj) H H'. told H. told H'. subst. injection E0 as E.
  now apply (identifier_messages s i s' j).
Qed.
Ltac ident := match goal with
  | A : Told (ErrIdentifier ?i) _, B : Told (ErrIdentifier ?j) _ |- _ =>
      assert (i = j) by (eapply told_identifier; [| |exact A|exact B]; eauto); subst
  end.

Lemma parse_identifier s o e i :
  from_str s o = TErr (ParseError e) -> cause (ErrParse e) = Some (ErrIdentifier i) -> RealIdentifier i.
Proof.
  intros H Hc. apply from_str_fault in H. destruct H as (pre & rest & m & st & evs & _ & _ & HF).
  destruct e; try discriminate; injection Hc as <-; cbn [Fault] in HF.
  - destruct HF as (_ & _ & w & x & r & _ & _ & _ & H & _). now exists x.
  - destruct HF as (w & w' & x & r & _ & _ & _ & _ & H & _). now exists x.
  - destruct HF as (n & a & x & r & _ & _ & H & _). now exists x.
Qed.

Lemma told_parse e f l : RealParse e -> RealParse f ->
  Told (ErrParse e) l -> Told (ErrParse f) l -> SameParse e f.
Proof.
  intros (s & o & Hs) (s' & o' & Hs') H H'.
  pose proof (fun i => parse_identifier _ _ _ i Hs) as Ie. pose proof (fun i => parse_identifier _ _ _ i Hs') as If.
  apply told_cons in H, H'. destruct H as (t & -> & H), H' as (t' & E & H').
  injection E as E <-. apply display_report in E; [|eapply error_plain; eauto ..].
  destruct E; try (now constructor); cbn [cause] in *;
    pose proof (Ie _ eq_refl); pose proof (If _ eq_refl); ident; constructor.
Qed.

Lemma told_input e f l : RealInput e -> RealInput f ->
  Told (ErrInput e) l -> Told (ErrInput f) l -> SameInput e f.
Proof.
  intros Re Rf H H'. told H. told H'. subst. injection E0 as E ->. apply input_messages in E.
  destruct e, f; simpl in *; try tauto. eauto using told_parse.
Qed.
Lemma told_file e f l : RealFile e -> RealFile f ->
  Told (ErrFile e) l -> Told (ErrFile f) l -> SameFile io utf8 e f.
Proof.
  intros Re Rf H H'. told H. told H'. subst. injection E0 as E ->. apply file_messages in E.
  destruct e, f; simpl in E; try tauto; subst; simpl in *; (split; [reflexivity|]);
    try (now apply told_input with t0);
    told R; told R0; subst; congruence.
Qed.
Lemma told_malformed e f l : NamesTag e -> NamesTag f ->
  Told (ErrMalformed e) l -> Told (ErrMalformed f) l -> SameMalformedReport e f.
Proof.
  intros Re Rf H H'. told H. told H'. subst. injection E0 as E. now apply malformed_messages in E.
Qed.
Lemma told_assertion e f l : NamesTag e -> NamesTag f ->
  Told (ErrAssertion e) l -> Told (ErrAssertion f) l -> SameMalformedReport e f.
Proof.
  intros Re Rf H H'. told H. told H'. subst. injection E0 as ->. eauto using told_malformed.
Qed.
Lemma told_classes e f l : RealClasses e -> RealClasses f ->
  Told (ErrClasses e) l -> Told (ErrClasses f) l -> e = f.
Proof.
  intros Re Rf H H'. told H. told H'. subst. injection E0 as E ->. apply classes_messages in E.
  destruct e, f; simpl in *; try tauto. subst. now ident.
Qed.
Lemma told_selector e f l : RealSelector e -> RealSelector f ->
  Told (ErrSelector e) l -> Told (ErrSelector f) l -> e = f.
Proof.
  intros Re Rf H H'. told H. told H'. subst. injection E0 as E ->. apply selector_messages in E.
  destruct e, f; simpl in *; try tauto; try (now ident). f_equal. eauto using told_classes.
Qed.
Lemma told_static e f l : RealStatic e -> RealStatic f ->
  Told (ErrStatic e) l -> Told (ErrStatic f) l -> e = f.
Proof.
  intros Re Rf H H'. told H. told H'. subst. injection E0 as E ->. apply static_messages in E.
  destruct e, f; simpl in *; try tauto; subst; now ident.
Qed.
Lemma told_stream e f l : RealStream e -> RealStream f ->
  Told (ErrStream e) l -> Told (ErrStream f) l -> SameStream io utf8 e f.
Proof.
  intros Re Rf H H'. told H. told H'. subst. injection E0 as E ->. apply stream_messages in E.
  destruct e, f; simpl in *; try tauto; try (now ident);
    eauto using told_assertion, told_input, told_file, told_selector, told_static.
Qed.

(** ** Errors of different types *)
Definition kind (e : any_error) : nat :=
  match e with
  | ErrStream _ => 0 | ErrAssertion _ => 1 | ErrMalformed _ => 2 | ErrInput _ => 3
  | ErrFile _ => 4 | ErrParse _ => 5 | ErrIdentifier _ => 6 | ErrId _ => 7 | ErrTag _ => 8
  | ErrClass _ => 9 | ErrSelector _ => 10 | ErrClasses _ => 11 | ErrStatic _ => 12
  | ErrIo _ => 13 | ErrUtf8 _ => 14
  end.
Lemma kinds e f : RealError e -> RealError f -> say e = say f ->
  kind e = kind f \/
  (exists i j, (e = ErrId i \/ e = ErrSelector (SelErrId i)) /\
               (f = ErrId j \/ f = ErrSelector (SelErrId j))) \/
  (exists i j, (e = ErrTag i \/ e = ErrSelector (SelErrTag i)) /\
               (f = ErrTag j \/ f = ErrSelector (SelErrTag j))) \/
  (exists i j, (e = ErrClass i \/ e = ErrSelector (SelErrClass i)) /\
               (f = ErrClass j \/ f = ErrSelector (SelErrClass j))).
Proof.
  intros Re Rf E.
  destruct e as [x|x|x|x|x|x|x|x|x|x|x|x|x|x|x]; try (now destruct Re);
  destruct f as [y|y|y|y|y|y|y|y|y|y|y|y|y|y|y]; try (now destruct Rf); try (left; reflexivity);
  clear Re Rf; cbn [display_error] in E; try discriminate;
  try destruct x; try destruct y; cbn in E; try discriminate;
  try match goal with p : (str * location)%type |- _ => destruct p; discriminate end;
  first [solve [right; left; eauto 8] | solve [right; right; left; eauto 8]
        | solve [right; right; right; eauto 8] | idtac].
Qed.

Lemma told_same e f l : RealError e -> RealError f -> Told e l -> Told f l -> SameError io utf8 e f.
Proof.
  intros Re Rf H H'. pose proof H as K. pose proof H' as K'. apply told_cons in K, K'.
  destruct K as (t & -> & K), K' as (t' & E & K'). injection E as E <-.
  destruct (kinds e f Re Rf E) as [Hk|[(i & j & [-> | ->] & [-> | ->])
    |[(i & j & [-> | ->] & [-> | ->])|(i & j & [-> | ->] & [-> | ->])]]];
    try (cbn [cause] in K, K'; cbn [RealError RealSelector] in Re, Rf; ident; now constructor).
  destruct e as [x|x|x|x|x|x|x|x|x|x|x|x|x|x|x], f as [y|y|y|y|y|y|y|y|y|y|y|y|y|y|y]; try discriminate;
    try (now destruct Re); cbn [RealError] in Re, Rf.
  - constructor. eauto using told_stream.
  - constructor. eauto using told_assertion.
  - constructor. eauto using told_malformed.
  - constructor. eauto using told_input.
  - constructor. eauto using told_file.
  - constructor. eauto using told_parse.
  - ident. constructor.
  - cbn [cause] in K, K'. ident. constructor.
  - cbn [cause] in K, K'. ident. constructor.
  - cbn [cause] in K, K'. ident. constructor.
  - rewrite (told_selector _ _ _ Re Rf H H'). constructor.
  - rewrite (told_classes _ _ _ Re Rf H H'). constructor.
  - rewrite (told_static _ _ _ Re Rf H H'). constructor.
Qed.

(** ** Errors that differ only in what reports leave open *)
Lemma same_parse e f l : SameParse e f -> Told (ErrParse e) l -> Told (ErrParse f) l.
Proof.
  intros S T. destruct S; auto; apply told_cons in T; apply told_cons; cbn [cause] in *;
    destruct T as (u & -> & T); exists u; (split; [|exact T]); f_equal;
    apply report_display; now constructor.
Qed.
Lemma same_input e f l : SameInput e f -> Told (ErrInput e) l -> Told (ErrInput f) l.
Proof.
  intros S H. apply told_cons in H; apply told_cons. destruct H as (t & -> & H). exists t.
  destruct e, f; cbn [SameInput cause] in *; try tauto; subst; (split; [reflexivity|]); auto.
  eauto using same_parse.
Qed.
Lemma same_file e f l : SameFile io utf8 e f -> Told (ErrFile e) l -> Told (ErrFile f) l.
Proof.
  intros S H. apply told_cons in H; apply told_cons. destruct H as (t & -> & H). exists t.
  destruct e, f; cbn [SameFile cause] in *; try tauto; destruct S as [-> S]; (split; [reflexivity|]);
    try (now apply same_input with error); told H; subst; apply told_cons; cbn [cause display_error];
    rewrite S; eauto.
Qed.
Lemma same_malformed e f l : NamesTag e -> NamesTag f -> SameMalformedReport e f ->
  Told (ErrMalformed e) l -> Told (ErrMalformed f) l.
Proof.
  intros Ne Nf S H. apply told_cons in H; apply told_cons. destruct H as (t & -> & H). exists t.
  split; [|exact H]. f_equal. now apply malformed_messages.
Qed.
Lemma same_assertion e f l : NamesTag e -> NamesTag f -> SameMalformedReport e f ->
  Told (ErrAssertion e) l -> Told (ErrAssertion f) l.
Proof.
  intros Ne Nf S H. apply told_cons in H; apply told_cons. destruct H as (t & -> & H). exists t.
  split; [reflexivity|]. cbn [cause] in *. eauto using same_malformed.
Qed.
Lemma same_stream e f l : RealStream e -> RealStream f -> SameStream io utf8 e f ->
  Told (ErrStream e) l -> Told (ErrStream f) l.
Proof.
  intros Re Rf S H. apply told_cons in H; apply told_cons. destruct H as (t & -> & H). exists t.
  destruct e, f; cbn [SameStream RealStream cause] in *; try tauto; (split; [reflexivity|]); subst;
    eauto using same_assertion, same_input, same_file.
Qed.
Lemma same_told e f l : RealError e -> RealError f -> SameError io utf8 e f -> Told e l -> Told f l.
Proof.
  intros Re Rf S. destruct S; cbn [RealError] in *; auto;
    eauto using same_stream, same_assertion, same_malformed, same_input, same_file, same_parse;
    intros H; apply told_cons in H; apply told_cons; destruct H as (t & -> & H); exists t; auto.
Qed.
Lemma reports e f l : RealError e -> RealError f -> Told e l ->
  Told f l <-> SameError io utf8 e f.
Proof. intros Re Rf H. split; [now apply told_same|]. intros S. now apply (same_told e f). Qed.

(** ** Conversions *)
Lemma converted e x l : into_stream_error e = Some x -> Told e l ->
  exists m, Told (ErrStream x) (display_stream_error x :: m ++ l).
Proof.
  intros E H. destruct e; try discriminate; injection E as <-;
    try (exists []; apply told_cons; eexists; split; [reflexivity|]; exact H).
  - told H. subst. exists []. apply told_cons; eexists; split; [reflexivity|].
    apply told_cons; eexists; split; [reflexivity|]; exact R.
  - told H. subst. exists []. apply told_cons; eexists; split; [reflexivity|].
    apply told_cons; eexists; split; [reflexivity|]; exact R.
  - told H. subst. exists []. apply told_cons; eexists; split; [reflexivity|].
    apply told_cons; eexists; split; [reflexivity|]; exact R.
  - exists [lit "Invalid classes selector"]. apply told_cons; eexists; split; [reflexivity|].
    apply told_cons; eexists; split; [reflexivity|]; exact H.
Qed.

(** ** Descriptions *)
Lemma descriptions e f : RealError e -> RealError f ->
  error_description io utf8 e = error_description io utf8 f <-> SameDescription e f.
Proof.
  intros Re Rf. split; [|now intros []].
  destruct e; try (now destruct Re); destruct f; try (now destruct Rf); intros E;
    first [discriminate | constructor].
Qed.
End Reports.

(** ** The errors of the functions of the library *)
Lemma made_str s o e : from_str s o = TErr e -> RealError (ErrInput e).
Proof. intros H. destruct e; simpl; [exact I|]. now exists s, o. Qed.
Lemma made_read fuel path limit buf reads acc e :
  read_loop fuel path limit buf reads acc = Some (inr e) -> RealFile e.
Proof.
  revert limit buf reads acc. induction fuel as [|fuel IH]; intros limit buf reads acc H; [discriminate|].
  cbn [read_loop] in H.
  destruct (match buf with [] => _ | _ => _ end) as [[data reads']|code]; [|injection H as <-; exact I].
  destruct data as [|b data]; [discriminate|]. destruct (from_utf8_prefix (b :: data)) as [[s n] rest].
  destruct n; [injection H as <-; exact I|]. destruct limit as [l|]; eauto.
  destruct (Nat.ltb l _); eauto. injection H as <-. exact I.
Qed.
Lemma made_file path opened o e : from_file path opened o = TErr e -> RealError (ErrFile e).
Proof.
  unfold from_file. destruct opened as [reads|code]; [|intros [= <-]; exact I].
  destruct (read_loop _ _ _ _ _ _) as [[s|e']|] eqn:E; try discriminate.
  - destruct (from_str s o) as [| | |] eqn:F; try discriminate. intros [= <-]. now apply made_str in F.
  - intros [= <-]. eapply made_read. exact E.
Qed.
Lemma made_identifier s i : ident_from_str s = inr i \/ ident_from_static_str s = inr i ->
  RealError (ErrIdentifier i).
Proof.
  intros [H|H]; exists s; [now apply ident_from_str_err in H|now apply ident_from_static_str_err in H].
Qed.
Lemma made_typed v e : id_from_str v = inr e \/ tag_from_str v = inr e \/ class_from_str v = inr e ->
  RealError (ErrStream e).
Proof.
  unfold id_from_str, tag_from_str, class_from_str. destruct (ident_from_str v) as [x|i] eqn:E.
  - intros [H|[H|H]]; discriminate.
  - apply ident_from_str_err in E. intros [[= <-]|[[= <-]|[= <-]]]; now exists v.
Qed.
Lemma made_classes vs e : classes_from_str_iterator vs = inr e -> RealError (ErrStream e).
Proof.
  intros H. apply classes_err in H. destruct H as [[_ ->]|(pre & v & post & i & _ & _ & H & ->)]; [exact I|].
  now exists v.
Qed.
Lemma made_static s e : select_str s = inr e -> RealError (ErrStream e).
Proof.
  unfold select_str. destruct (static_into_selector s) as [x|e'] eqn:E; [discriminate|]. intros [= <-].
  destruct (shape_total s) as (tag & id & classes & HS). apply (static_err_iff _ _ _ _ _ HS) in E.
  destruct E; [exact I|..]; eexists; eauto.
Qed.
Lemma errors_real :
  (forall s o e, from_str s o = TErr e -> RealError (ErrInput e)) /\
  (forall path opened o e, from_file path opened o = TErr e -> RealError (ErrFile e)) /\
  (forall s i, ident_from_str s = inr i \/ ident_from_static_str s = inr i -> RealError (ErrIdentifier i)) /\
  (forall v e, id_from_str v = inr e \/ tag_from_str v = inr e \/ class_from_str v = inr e ->
     RealError (ErrStream e)) /\
  (forall vs e, classes_from_str_iterator vs = inr e -> RealError (ErrStream e)) /\
  (forall s e, select_str s = inr e -> RealError (ErrStream e)) /\
  (forall e x, RealError e -> into_stream_error e = Some x -> RealError (ErrStream x)).
Proof.
  repeat split; eauto using made_str, made_file, made_identifier, made_typed, made_classes, made_static.
  intros e x H E. destruct e; try discriminate; injection E as <-; exact H.
Qed.

(** ** Examples *)
Lemma report_example io utf8 : exists i,
  from_str (lit "<p><a b,c></a></p>") (Options None None)
  = TErr (ParseError (InvalidAttributeIdentifier (Location 1 7 6) i)) /\
  Told (display_error io utf8)
    (ErrStream (SEFile (FileInput (lit "x.html") (ParseError (InvalidAttributeIdentifier (Location 1 7 6) i)))))
    (map lit ["Input error for inserted file content stream"; "Unable to process file 'x.html'";
              "Unable to parse input into HTML5 stream";
              "Invalid attribute identifier at line 1 column 7 (byte offset 6)";
              "Identifier contains forbidden character ','"]%string).
Proof.
  exists (IdForbidden 44%N). split; [vm_compute; reflexivity|].
  cbn [map]. repeat (first [apply T_last; reflexivity | eapply (T_cause (display_error io utf8)); [reflexivity|]]).
Qed.

Lemma description_refuted : exists s e vs f,
  select_str s = inr (SEStaticSelector e) /\
  classes_from_str_iterator vs = inr (SESelector (SelErrClasses f)) /\
  forall io utf8, error_description io utf8 (ErrStatic e) = error_description io utf8 (ErrClasses f).
Proof. exists [], StaticUnrestricted, [], ClassesEmpty. repeat split. Qed.
