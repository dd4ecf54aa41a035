(** Property C81 (results of programs with state). *)
From Coq Require Import String ZArith List Bool Lia.
From stdpp Require Import gmap.
From Verif Require Import Text Event Input Parse Template Selector Machine MachineState.
From Verif Require Import SpecText SpecAttr SpecParse SpecRender SpecTree SpecTransform SpecLaws SpecSafe.
From Verif Require Import SpecState SpecStop SpecNatural SpecNaturalState SpecSafeState.
From Verif Require Import SafeStateProofs SafeStateProofs2 Prop_Ops Prop_Natural Prop_NaturalState.
Local Open Scope nat_scope.
Local Open Scope list_scope.

(** ** C81 Results of programs with state

    What C17, C29, C41 and C60 say of results holds also for programs whose closures, iterators and
    content streams share state.  The conditions are about the calls that the program, or one of its
    closures, makes in any state ([WOccurs]). *)

(** Well-typed programs with valid arguments turn well-nested templates into well-nested
    templates.  ([N]: streams given as content may be taken to stop after [N] events.) *)
Theorem C81_nested : forall (W : Type) N evs (b : once W) w e out w',
  WellNested evs -> wtyped false (snd (b w)) e -> WValidArgs N (snd (b w)) ->
  GivesIn evs b w (inl out) w' -> WellNested out.
Proof. exact @safe_nested. Qed.
Print Assumptions C81_nested.

(** Errors are not invented: they were given to a call that the program can make, or come from a
    stream or function of the program. *)
Theorem C81_errors_given : forall (W : Type) N evs (b : once W) w e err w',
  WellNested evs -> wtyped false (snd (b w)) e -> WValidArgs N (snd (b w)) -> WElements (snd (b w)) ->
  GivesIn evs b w (inr err) w' -> exists o, WOccurs (snd (b w)) o /\ WSuppliesError o err.
Proof. exact @safe_errors. Qed.
Print Assumptions C81_errors_given.

(** Errors surface: if a call that is always made is given an error, there is no other result. *)
Theorem C81_errors_surface : forall (W : Type) N evs (b : once W) w e o r w',
  WellNested evs -> wtyped false (snd (b w)) e -> WValidArgs N (snd (b w)) ->
  WAtTop (snd (b w)) o -> WFailing o -> GivesIn evs b w r w' -> exists err, r = inr err.
Proof. exact @safe_surface. Qed.
Print Assumptions C81_errors_surface.

(** No text is invented. *)
Theorem C81_text : forall (W : Type) N evs (b : once W) w e out w',
  WellNested evs -> wtyped false (snd (b w)) e -> WValidArgs N (snd (b w)) -> WElements (snd (b w)) ->
  GivesIn evs b w (inl out) w' -> forall y, In y out ->
  match y with
  | Data _ | RawData _ | Comment _ | Doctype _ => In y evs \/ WBrought (snd (b w)) y
  | _ => True
  end.
Proof. exact @safe_text. Qed.
Print Assumptions C81_text.

(** Programs that write literals and numbers only, also those kept in their state, cannot change
    the structure of a parsed document: the result is rendered to a text that is read with the same
    markup and the same text between. *)
Theorem C81_static : forall (W : Type) s opts evs (b : once W) w e out w',
  from_str s opts = TOk evs -> Forall NoBang evs ->
  wtyped false (snd (b w)) e -> WNamesValid (snd (b w)) ->
  (forall o, WOccurs (snd (b w)) o -> WStaticCall o) -> GivesIn evs b w (inl out) w' ->
  exists out', from_str (display_events out) (Options None None) = TOk out' /\ SameStructure out out'.
Proof. exact @safe_static. Qed.
Print Assumptions C81_static.

(** ** Examples *)

(** [p] elements get their number, counted by the program, as title and as last contents. *)
Definition ess_number (w : nat) : wop nat :=
  WSetAttribute (inl (eo_id "title")) (Some (value_from_int (Z.of_nat w))).
Definition ess_last (w : nat) : wop nat := WAppendContents (WCPlain (CInt (Z.of_nat w))).
Definition ess_select : wop nat :=
  WSelect false (inl (SelTag (eo_id "p"))) (fun _ w => (S w, [ess_number w; ess_last w])).
(** At the end comes a stream that gives two [br], or fails if it is asked when the count is 9. *)
Definition ess_stream : live nat := fun i w =>
  (S w, if w =? 9 then inr (SEIdentifier IdEmpty) else inl (if i =? 2 then None else Some eo_br)).
Definition ess_append : wop nat := WAppend (WCLive ess_stream).
Definition ess_count : once nat := fun w => (w, [ess_select]).
Definition ess_both : once nat := fun w => (w, [ess_select; ess_append]).

Lemma ess_typed : wtyped false [ess_select; ess_append] false.
Proof.
  econstructor; [apply WT_select|econstructor; [apply WT_append|constructor]].
  intros k w. exists true. repeat econstructor.
Qed.
Lemma ess_occurs p o : WOccurs p o -> (forall a, In a p -> a = ess_select \/ a = ess_append) ->
  o = ess_select \/ o = ess_append \/ exists w, o = ess_number w \/ o = ess_last w.
Proof.
  intros Ho Hp. inversion Ho as [? ? Hin|? a q ? Hin Hm Hq]; subst.
  - destruct (Hp _ Hin) as [->| ->]; auto.
  - destruct (Hp _ Hin) as [->| ->]; [|destruct Hm]. destruct Hm as (k & w & ->). cbn in Hq.
    inversion Hq as [? ? Hin2|? a' q' ? Hin2 Hm Hq']; subst; destruct Hin2 as [<-|[<-|[]]]; eauto 6; destruct Hm.
Qed.
Lemma ess_title : ValidName (id_str (eo_id "title")).
Proof. apply eo_valid. vm_compute. eauto. Qed.
Lemma ess_writable : Writable (id_str (eo_id "title")).
Proof.
  split; [apply ess_title|]. intros c Hc Hd. cbn in Hc, Hd.
  repeat destruct Hc as [<-|Hc]; try destruct Hc; repeat destruct Hd as [Hd|Hd]; try discriminate; destruct Hd.
Qed.
Lemma ess_names p : (forall a, In a p -> a = ess_select \/ a = ess_append) -> WNamesValid p.
Proof.
  intros Hp o i Ho Hi. destruct (ess_occurs p o Ho Hp) as [->|[->|[w [->| ->]]]]; try discriminate.
  injection Hi as <-. apply ess_title.
Qed.
Lemma ess_events k (f : live nat) evs stop : PossibleEvents k f evs stop ->
  (forall i w ev, snd (f i w) = inl (Some ev) -> ev = eo_br) -> Forall (fun ev => ev = eo_br) evs.
Proof.
  induction 1 as [k f w H|k f w err H|f|k f w ev evs stop H _ IH]; intros Hf; constructor.
  - apply (Hf 0 w ev H).
  - apply IH. intros i v ev' H'. apply (Hf (S i) v ev' H').
Qed.
Lemma ess_stream_br i w ev : snd (ess_stream i w) = inl (Some ev) -> ev = eo_br.
Proof.
  unfold ess_stream. cbn. destruct (w =? 9); [discriminate|]. destruct (i =? 2); [discriminate|]. congruence.
Qed.
Lemma ess_brs evs : Forall (fun ev => ev = eo_br) evs -> WellNested (strip_noops evs).
Proof.
  intros H. exists (map Leaf evs). split.
  - intros x Hx. apply in_map_iff in Hx as (ev & <- & Hev). rewrite Forall_forall in H.
    rewrite (H ev) by (now apply elem_of_list_In). apply eo_br_proper.
  - unfold strip_noops. induction H as [|ev evs -> _ IH]; [reflexivity|]. cbn. now rewrite IH.
Qed.
Lemma ess_valid : WValidArgs 0 [ess_select; ess_append].
Proof.
  assert (forall a, In a [ess_select; ess_append] -> a = ess_select \/ a = ess_append) as Hp.
  { intros a [<-|[<-|[]]]; auto. }
  split; [|split; [|split]].
  - now apply ess_names.
  - intros o evs Ho (c & c0 & Hc & Hcp & Hg).
    destruct (ess_occurs _ o Ho Hp) as [->|[->|[w [->| ->]]]]; try discriminate; injection Hc as <-.
    + inversion Hcp; subst. inversion Hg; subst. apply ess_brs. eapply ess_events; eauto using ess_stream_br.
    + inversion Hcp; subst. inversion Hg; subst.
      exists [Leaf (Data (Encoded (Actual (decimal_z (Z.of_nat w)))))]. split; [|reflexivity].
      intros x [<-|[]]. now constructor.
  - intros f w x y Ho. destruct (ess_occurs _ _ Ho Hp) as [E|[E|[v [E|E]]]]; discriminate.
  - intros o evs Ho (c & c0 & Hc & Hcp & Hg).
    destruct (ess_occurs _ o Ho Hp) as [->|[->|[w [->| ->]]]]; try discriminate; injection Hc as <-.
    + inversion Hcp; subst. inversion Hg; subst. exists []. rewrite app_nil_r. apply ess_brs.
      eapply ess_events; eauto using ess_stream_br.
    + inversion Hcp; subst. inversion Hg.
Qed.
Lemma ess_elements : WElements [ess_select; ess_append].
Proof.
  intros o m Ho Hm. destruct (ess_occurs _ o Ho) as [->|[->|[w [->| ->]]]]; try discriminate.
  - intros a [<-|[<-|[]]]; auto.
  - injection Hm as <-. intros [] H; try discriminate; exact I.
Qed.
Lemma ess_nested : WellNested en_events.
Proof.
  exists [eo_p; Leaf eo_br]. split; [|reflexivity]. intros x [<-|[<-|[]]]; [apply eo_p_proper|apply eo_br_proper].
Qed.

Example C81_example_gives : exists out,
  GivesIn en_events ess_both 3 (inl out) 7 /\ WellNested out /\
  (forall d, In (Data d) out -> In (Data d) en_events \/ WBrought [ess_select; ess_append] (Data d)).
Proof.
  exists [OpeningTag (eo_id "p") [Attribute (eo_id "class") (Some (eo_val "a  b"));
            Attribute (eo_id "title") (Some (value_from_int 3))]; eo_text "1"; eo_br; eo_int 3; eo_close; eo_br; eo_br; eo_br].
  assert (GivesIn en_events ess_both 3 (inl [OpeningTag (eo_id "p") [Attribute (eo_id "class") (Some (eo_val "a  b"));
            Attribute (eo_id "title") (Some (value_from_int 3))]; eo_text "1"; eo_br; eo_int 3; eo_close; eo_br; eo_br; eo_br]) 7)
    as H by (apply (ens_run 60); vm_compute; reflexivity).
  split; [exact H|]. split.
  - exact (C81_nested nat 0 en_events ess_both 3 false _ 7 ess_nested ess_typed ess_valid H).
  - intros d Hd. exact (C81_text nat 0 en_events ess_both 3 false _ 7 ess_nested ess_typed ess_valid ess_elements H (Data d) Hd).
Qed.
(** Started with 8 the second part fails; the error is that of the stream. *)
Example C81_example_error : GivesIn en_events ess_both 8 (inr (SEIdentifier IdEmpty)) 10 /\
  exists o, WOccurs [ess_select; ess_append] o /\ WSuppliesError o (SEIdentifier IdEmpty).
Proof.
  assert (GivesIn en_events ess_both 8 (inr (SEIdentifier IdEmpty)) 10) as H
    by (apply (ens_run 60); vm_compute; reflexivity).
  split; [exact H|].
  exact (C81_errors_given nat 0 en_events ess_both 8 false _ 10 ess_nested ess_typed ess_valid ess_elements H).
Qed.
(** A call with an invalid name. *)
Example C81_example_surface : forall (b : once nat) w r w',
  snd (b w) = [WApply [WSelect true (inr (SEIdentifier IdEmpty)) (fun _ w => (S w, []))]] ->
  GivesIn en_events b w r w' -> exists err, r = inr err.
Proof.
  intros b w r w' Hb H. eapply (C81_errors_surface nat 0 en_events b w false
    (WSelect true (inr (SEIdentifier IdEmpty)) (fun _ w => (S w, [])))); [apply ess_nested|..|exact H]; try rewrite Hb.
  - econstructor; [apply WT_apply|constructor]. econstructor; [|constructor]. apply WT_select.
    intros. exists true. constructor.
  - assert (forall o, WOccurs [WApply [WSelect true (inr (SEIdentifier IdEmpty)) (fun _ w => (S w, []))]] o ->
      wop_name o = None /\ wop_content o = None /\ forall f, o <> @WApplyAsTemplate nat f) as Ho.
    { intros o Ho. inversion Ho as [? ? Hin|? a q ? Hin Hm Hq]; subst; destruct Hin as [<-|[]]; [easy|].
      hnf in Hm. subst. inversion Hq as [? ? Hin|? a q ? Hin Hm Hq']; subst; destruct Hin as [<-|[]]; [easy|].
      destruct Hm as (k & v & ->). cbn in Hq'. inversion Hq' as [? ? Hin|? a q ? Hin Hm Hq'']; subst; destruct Hin. }
    split; [|split; [|split]].
    + intros o i Hi Hn. destruct (Ho o Hi) as (E & _). congruence.
    + intros o evs Hi (c & c0 & Hc & _). destruct (Ho o Hi) as (_ & E & _). congruence.
    + intros f v x y Hi. destruct (Ho _ Hi) as (_ & _ & E). now destruct (E f).
    + intros o evs Hi (c & c0 & Hc & _). destruct (Ho o Hi) as (_ & E & _). congruence.
  - eapply WAtTop_apply; [now left|]. apply WAtTop_here. now left.
  - left. now exists (SEIdentifier IdEmpty).
Qed.

(** Whatever a document is and whatever the count is, the numbered document can be read back. *)
Lemma ess_static o : WOccurs [ess_select] o -> WStaticCall o.
Proof.
  intros Ho. assert (o <> ess_append) as Hne.
  { intros ->. inversion Ho as [? ? Hin|? a q ? Hin Hm Hq]; subst.
    - destruct Hin as [E|[]]. discriminate.
    - destruct Hin as [<-|[]]. destruct Hm as (k & w & ->). cbn in Hq.
      inversion Hq as [? ? Hin2|? a' q' ? Hin2 Hm Hq']; subst.
      + destruct Hin2 as [E|[E|[]]]; discriminate.
      + destruct Hin2 as [<-|[<-|[]]]; destruct Hm. }
  destruct (ess_occurs _ o Ho) as [->|[->|[w [->| ->]]]].
  - intros a [<-|[]]. auto.
  - split; try discriminate; try (now intros o0 x E Hx; destruct o0); try (now intros it v []).
    intros m Hm. injection Hm as <-. intros [] H; try discriminate; exact I.
  - congruence.
  - split; try discriminate; try (now intros it v []).
    + intros o0 n E Hn. destruct o0; try discriminate. injection E as <- <-. injection Hn as <-.
      apply ess_writable.
    + intros o0 v E Hv. destruct o0; try discriminate. injection E as <- <-. injection Hv as <-. constructor.
  - split; try discriminate; try (now intros o0 x E Hx; destruct o0); try (now intros it v []).
    + intros c Hc. injection Hc as <-. eexists. split; [reflexivity|constructor].
Qed.
Example C81_example_static : forall s opts evs w out w',
  from_str s opts = TOk evs -> Forall NoBang evs -> GivesIn evs ess_count w (inl out) w' ->
  exists out', from_str (display_events out) (Options None None) = TOk out' /\ SameStructure out out'.
Proof.
  intros s opts evs w out w' Hs Hb H.
  refine (C81_static nat s opts evs ess_count w false out w' Hs Hb _ (ess_names _ _) ess_static H).
  - econstructor; [apply WT_select|constructor]. intros k v. exists true. repeat econstructor.
  - intros a [<-|[]]. auto.
Qed.
