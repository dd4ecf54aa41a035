(** ** C71 Streams whose tags do not match

    Templates are well nested (C17), but content given by the user need not be: [Stream] is a
    public trait, and an implementation can leave out events of another stream.  A selection
    after such content was put into the stream sees its events ([Offers]). *)
From Coq Require Import String ZArith List Lia.
From stdpp Require Import gmap.
From Verif Require Import Text Event Input Parse Selector Machine Template.
From Verif Require Import SpecText SpecAttr SpecParse SpecTree SpecTransform SpecOps SpecLocal SpecBroken.
From Verif Require Import TreeProofs SelectionProofs OpProofs BrokenProofs BrokenProofs2 BrokenProofs3 BrokenProofs4.
From Verif Require Import Prop_Ops Prop_Selection Prop_Meet.
Local Open Scope nat_scope.

(** A closing tag for which nothing is open: what comes before is transformed, then there is
    an error that names the tag. *)
Theorem C71_close : forall T q direct m b F n rest r0,
  WellNested T -> Offers T q (events F ++ ClosingTag n :: rest) -> ~ In Noop rest ->
  Proper F -> ElementSelector m -> ElementBuilder b -> ValidArgs [OSelect direct (inl m) b] ->
  Gives (events F) [OSelect direct (inl m) b] r0 ->
  Gives T (q ++ [OSelect direct (inl m) b])
    (followed_by r0 (inr (SEAssertion (MUnexpectedClosingTag n)))).
Proof. exact close_select. Qed.
Print Assumptions C71_close.

(** The same for [select_once] if nothing has been selected yet ... *)
Theorem C71_close_once : forall T q direct m p e F n rest rs out,
  WellNested T -> Offers T q (events F ++ ClosingTag n :: rest) -> ~ In Noop rest ->
  Proper F -> ElementSelector m -> typed true p e -> ValidArgs [OSelectOnce direct (inl m) p] ->
  SelectsIn direct m F [] rs out ->
  Gives T (q ++ [OSelectOnce direct (inl m) p]) (inr (SEAssertion (MUnexpectedClosingTag n))).
Proof. exact close_once_none. Qed.
Print Assumptions C71_close_once.

(** ... and otherwise whatever follows is passed as it is. *)
Theorem C71_once_done : forall T q direct m p e F x xs rest rs out r0,
  WellNested T -> Offers T q (events F ++ rest) -> ~ In Noop rest ->
  Proper F -> ElementSelector m -> typed true p e -> ValidArgs [OSelectOnce direct (inl m) p] ->
  SelectsIn direct m F (x :: xs) rs out ->
  Gives (events F) [OSelectOnce direct (inl m) p] r0 ->
  Gives T (q ++ [OSelectOnce direct (inl m) p]) (followed_by r0 (inl rest)).
Proof. exact close_once_some. Qed.
Print Assumptions C71_once_done.

(** A selected element that is not closed: if the builder begins by looking at the contents
    then there is an error; it is the error for a missing closing tag or one that was given
    to a call. *)
Theorem C71_open : forall T q direct m b F t a K rest r0,
  WellNested T -> Offers T q (events F ++ OpeningTag t a :: events K ++ rest) ->
  Proper F -> ElementSelector m -> ElementBuilder b -> ValidArgs [OSelect direct (inl m) b] ->
  matches m (OpeningTag t a) = true -> ProperTree (Elem t a K t) -> Unclosed t rest -> ~ In Noop rest ->
  (forall k, exists o p, b k = o :: p /\ InContents o) ->
  Gives (events F) [OSelect direct (inl m) b] r0 ->
  exists err, Gives T (q ++ [OSelect direct (inl m) b]) (followed_by r0 (inr err)) /\
    ((forall k, ElementSelectors (b k)) ->
     err = SEAssertion (MExpectedClosingTag None t) \/ exists k o, Occurs (b k) o /\ SuppliesError o err).
Proof. exact open_select. Qed.
Print Assumptions C71_open.

Theorem C71_open_once : forall T q direct m o p e F t a K rest rs out,
  WellNested T -> Offers T q (events F ++ OpeningTag t a :: events K ++ rest) ->
  Proper F -> ElementSelector m -> typed true (o :: p) e -> ValidArgs [OSelectOnce direct (inl m) (o :: p)] ->
  SelectsIn direct m F [] rs out -> matches m (OpeningTag t a) = true ->
  ProperTree (Elem t a K t) -> Unclosed t rest -> ~ In Noop rest -> InContents o ->
  exists err, Gives T (q ++ [OSelectOnce direct (inl m) (o :: p)]) (inr err) /\
    (ElementSelectors (o :: p) -> err = SEAssertion (MExpectedClosingTag None t) \/
       exists o', Occurs (o :: p) o' /\ SuppliesError o' err).
Proof. exact open_once. Qed.
Print Assumptions C71_open_once.

(** A selected element that is never closed, with a builder that does not look at the
    contents: there is no error, and all remaining events belong to the element. *)
Theorem C71_lasts : forall T q direct m b F t a rest r0 r,
  WellNested T -> Offers T q (events F ++ OpeningTag t a :: rest) -> ~ In Noop rest ->
  Proper F -> ElementSelector m -> ElementBuilder b -> ValidArgs [OSelect direct (inl m) b] ->
  matches m (OpeningTag t a) = true -> ValidName (id_str t) -> NeverClosed t 0 rest ->
  Gives (events F) [OSelect direct (inl m) b] r0 ->
  (forall k, Outside (OpeningTag t a :: rest) (b k) r) ->
  Gives T (q ++ [OSelect direct (inl m) b]) (followed_by r0 r).
Proof. exact lasts_select. Qed.
Print Assumptions C71_lasts.

Theorem C71_lasts_once : forall T q direct m p F t a rest rs out r,
  WellNested T -> Offers T q (events F ++ OpeningTag t a :: rest) -> ~ In Noop rest ->
  Proper F -> ElementSelector m -> ValidArgs [OSelectOnce direct (inl m) p] ->
  SelectsIn direct m F [] rs out ->
  matches m (OpeningTag t a) = true -> ValidName (id_str t) -> NeverClosed t 0 rest ->
  Outside (OpeningTag t a :: rest) p r ->
  Gives T (q ++ [OSelectOnce direct (inl m) p]) (followed_by (inl (events F)) r).
Proof. exact lasts_once. Qed.
Print Assumptions C71_lasts_once.

(** If nothing matches then any events are passed as they are as long as nothing is closed
    that has not been opened; the names of the tags are not compared and elements may remain
    open. *)
Theorem C71_unmatched : forall T q direct m evs, WellNested T -> Offers T q evs -> ~ In Noop evs ->
  (forall ev, In ev evs -> matches m ev = false) -> NeverBelow evs ->
  (forall b, Gives T (q ++ [OSelect direct (inl m) b]) (inl evs)) /\
  (forall p, Gives T (q ++ [OSelectOnce direct (inl m) p]) (inl evs)).
Proof. exact unmatched_fine. Qed.
Print Assumptions C71_unmatched.

Theorem C71_unmatched_below : forall T q direct m pre c post,
  WellNested T -> Offers T q (pre ++ ClosingTag c :: post) ->
  ~ In Noop (pre ++ ClosingTag c :: post) ->
  (forall ev, In ev (pre ++ ClosingTag c :: post) -> matches m ev = false) ->
  NeverBelow pre -> closings pre = openings pre ->
  (forall b, Gives T (q ++ [OSelect direct (inl m) b]) (inr (SEAssertion (MUnexpectedClosingTag c)))) /\
  (forall p, Gives T (q ++ [OSelectOnce direct (inl m) p]) (inr (SEAssertion (MUnexpectedClosingTag c)))).
Proof. exact unmatched_below. Qed.
Print Assumptions C71_unmatched_below.

(** One of the two cases applies. *)
Theorem C71_below : forall evs, NeverBelow evs \/
  exists pre c post, evs = pre ++ ClosingTag c :: post /\ NeverBelow pre /\ closings pre = openings pre.
Proof. exact below_cases. Qed.
Print Assumptions C71_below.

(** ** Examples *)

Definition eb_p : selector := SelTag (eo_id "p").
Definition eb_div : event := ClosingTag (eo_id "div").
(** The template is a paragraph; it is replaced by a stream of the user with these events. *)
Definition eb_user (evs : list event) : pipeline := [OReplace (CStream evs None)].
Lemma eb_offers evs : ~ In Noop evs -> Offers (events [eo_p]) (eb_user evs) evs.
Proof.
  intros H. apply Offers_replace.
  assert (strip_noops evs = evs) as E.
  { induction evs as [|ev evs IH]; [reflexivity|]. unfold strip_noops in *. cbn.
    destruct ev; try (now destruct H; left); rewrite IH; auto; intros X; apply H; now right. }
  rewrite <- E at 2. constructor.
Qed.
Lemma eb_template : WellNested (events [eo_p]).
Proof. exists [eo_p]. split; [apply em_proper|reflexivity]. Qed.
Lemma eb_element : ElementSelector eb_p.
Proof. intros [] H; try discriminate. Qed.
Lemma eb_removed : Gives (events [eo_p]) [OSelect false (inl eb_p) em_builder] (inl [eo_open; eo_close]).
Proof.
  apply (C19_select false eb_p [eo_p] [eo_p] [[eo_open; eo_close]]).
  - apply eb_element.
  - apply em_proper.
  - apply em_typed.
  - apply em_select_args.
  - apply (Sel_match eb_p eo_p [] [] [eo_open; eo_close] []); [reflexivity|constructor].
  - split; [reflexivity|]. intros [|[|k]] x r Hx Hr; try discriminate.
    injection Hx as <-. injection Hr as <-.
    exact (C23_remove_contents eo_p eo_open eo_kids eo_close eo_p_proper (In_elem _ _ _ _)).
Qed.

Ltac no_noop := let H := fresh in intros H; cbn in H; decompose [or] H; solve [discriminate|contradiction].

(** [<p class="a  b" title>1<br></P></div>2] *)
Definition eb_evs : list event := events [eo_p] ++ [eb_div; eo_text "2"].
Example C71_example_close : Gives (events [eo_p]) (eb_user eb_evs ++ [OSelect false (inl eb_p) em_builder])
  (inr (SEAssertion (MUnexpectedClosingTag (eo_id "div")))).
Proof.
  apply (C71_close (events [eo_p]) (eb_user eb_evs) false eb_p em_builder [eo_p] (eo_id "div") [eo_text "2"]
           (inl [eo_open; eo_close])).
  - apply eb_template.
  - apply eb_offers. no_noop.
  - no_noop.
  - apply em_proper.
  - apply eb_element.
  - apply em_typed.
  - apply em_select_args.
  - apply eb_removed.
Qed.

(** The paragraph, with [</div>2] appended to it. *)
Example C71_example_append :
  Gives (events [eo_p]) [OAppend (CStream [eb_div; eo_text "2"] None); OSelect false (inl eb_p) em_builder]
    (inr (SEAssertion (MUnexpectedClosingTag (eo_id "div")))).
Proof.
  apply (C71_close (events [eo_p]) [OAppend (CStream [eb_div; eo_text "2"] None)] false eb_p em_builder
           [eo_p] (eo_id "div") [eo_text "2"] (inl [eo_open; eo_close])).
  - apply eb_template.
  - apply (Offers_append _ _ [eb_div; eo_text "2"]). apply (CG_stream [eb_div; eo_text "2"]).
  - no_noop.
  - apply em_proper.
  - apply eb_element.
  - apply em_typed.
  - apply em_select_args.
  - apply eb_removed.
Qed.

(** [1<br></div>2], nothing is selected *)
Lemma eb_kids_proper : Proper eo_kids.
Proof. intros x [<-|[<-|[]]]; [now constructor|apply eo_br_proper]. Qed.
Lemma eb_none : SelectsIn false eb_p eo_kids [] [] (events eo_kids).
Proof. repeat (apply Sel_leaf; [reflexivity|]). constructor. Qed.
Definition eb_evs2 : list event := events eo_kids ++ [eb_div; eo_text "2"].
Example C71_example_close_once :
  Gives (events [eo_p]) (eb_user eb_evs2 ++ [OSelectOnce false (inl eb_p) [ORemoveContents]])
    (inr (SEAssertion (MUnexpectedClosingTag (eo_id "div")))).
Proof.
  apply (C71_close_once (events [eo_p]) (eb_user eb_evs2) false eb_p _ true eo_kids (eo_id "div") [eo_text "2"]
           [] (events eo_kids)).
  - apply eb_template.
  - apply eb_offers. no_noop.
  - no_noop.
  - apply eb_kids_proper.
  - apply eb_element.
  - apply typed_one. constructor.
  - apply em_once_args.
  - apply eb_none.
Qed.

(** [<p class="a  b" title>1<br></P></div>2] again: after the first match nothing is noticed. *)
Lemma eb_removed_once : Gives (events [eo_p]) [OSelectOnce false (inl eb_p) [ORemoveContents]] (inl [eo_open; eo_close]).
Proof. exists 30. eexists. vm_compute. reflexivity. Qed.
Example C71_example_once_done :
  Gives (events [eo_p]) (eb_user eb_evs ++ [OSelectOnce false (inl eb_p) [ORemoveContents]])
    (inl [eo_open; eo_close; eb_div; eo_text "2"]).
Proof.
  apply (C71_once_done (events [eo_p]) (eb_user eb_evs) false eb_p _ true [eo_p] eo_p [] [eb_div; eo_text "2"]
           [[eo_open; eo_close]] ([eo_open; eo_close] ++ []) (inl [eo_open; eo_close])).
  - apply eb_template.
  - apply eb_offers. no_noop.
  - no_noop.
  - apply em_proper.
  - apply eb_element.
  - apply typed_one. constructor.
  - apply em_once_args.
  - apply (Sel_match eb_p eo_p [] [] [eo_open; eo_close] []); [reflexivity|constructor].
  - apply eb_removed_once.
Qed.

(** [<p class="a  b" title>1<br></P><p class="a  b" title>1<br></div>2]: the second is not
    closed. *)
Lemma eb_other : ~ SameName (id_str (eo_id "div")) (id_str (eo_id "p")).
Proof. intros H. inversion H as [|? ? ? ? H1 H2]. inversion H2. Qed.
Lemma eb_post : [eo_text "2"] <> [].
Proof. discriminate. Qed.
Lemma eb_unclosed : Unclosed (eo_id "p") [eb_div; eo_text "2"].
Proof. right. exists (eo_id "div"), [eo_text "2"]. split; [reflexivity|apply eb_other]. Qed.
Lemma eb_open_proper : ProperTree (Elem (eo_id "p") eo_attrs eo_kids (eo_id "p")).
Proof.
  pose proof eo_p_proper as H. inversion H; subst. constructor; auto.
  repeat constructor.
Qed.
Definition eb_evs3 : list event := events [eo_p] ++ eo_open :: events eo_kids ++ [eb_div; eo_text "2"].
Lemma eb_offers3 : Offers (events [eo_p]) (eb_user eb_evs3) eb_evs3.
Proof. apply eb_offers. no_noop. Qed.
Example C71_example_open :
  Gives (events [eo_p]) (eb_user eb_evs3 ++ [OSelect false (inl eb_p) em_builder])
    (inr (SEAssertion (MExpectedClosingTag None (eo_id "p")))).
Proof.
  destruct (C71_open (events [eo_p]) (eb_user eb_evs3) false eb_p em_builder [eo_p] (eo_id "p") eo_attrs eo_kids
              [eb_div; eo_text "2"] (inl [eo_open; eo_close])) as (err & H & He).
  - apply eb_template.
  - apply eb_offers3.
  - apply em_proper.
  - apply eb_element.
  - apply em_typed.
  - apply em_select_args.
  - reflexivity.
  - apply eb_open_proper.
  - apply eb_unclosed.
  - no_noop.
  - intros k. exists ORemoveContents, []. split; [reflexivity|constructor].
  - apply eb_removed.
  - destruct He as [->|(k & o & Ho & Hs)]; [intros k; apply em_selectors|exact H|].
    now destruct (em_supplies o err Ho).
Qed.
Definition eb_evs4 : list event := events eo_kids ++ eo_open :: events eo_kids ++ [].
Example C71_example_open_once :
  Gives (events [eo_p]) (eb_user eb_evs4 ++ [OSelectOnce false (inl eb_p) [ORemoveContents]])
    (inr (SEAssertion (MExpectedClosingTag None (eo_id "p")))).
Proof.
  destruct (C71_open_once (events [eo_p]) (eb_user eb_evs4) false eb_p ORemoveContents [] true eo_kids
              (eo_id "p") eo_attrs eo_kids [] [] (events eo_kids)) as (err & H & He).
  - apply eb_template.
  - apply eb_offers. no_noop.
  - apply eb_kids_proper.
  - apply eb_element.
  - apply typed_one. constructor.
  - apply em_once_args.
  - apply eb_none.
  - reflexivity.
  - apply eb_open_proper.
  - now left.
  - intros [].
  - constructor.
  - destruct He as [->|(o & Ho & Hs)]; [apply em_selectors|exact H|].
    now destruct (em_supplies o err Ho).
Qed.

(** According to its documentation (event.rs:631-636) this error has no event only at the end
    of the input.  Here another closing tag was found, and text follows. *)
Theorem C71_found_refuted : exists T q F t a K c post p, WellNested T /\
  Offers T q (events F ++ OpeningTag t a :: events K ++ ClosingTag c :: post) /\
  Proper F /\ ProperTree (Elem t a K t) /\ ~ SameName (id_str c) (id_str t) /\ post <> [] /\
  Gives T (q ++ p) (inr (SEAssertion (MExpectedClosingTag None t))).
Proof.
  exists (events [eo_p]), (eb_user eb_evs3), [eo_p], (eo_id "p"), eo_attrs, eo_kids, (eo_id "div"), [eo_text "2"],
    [OSelect false (inl eb_p) em_builder].
  exact (conj eb_template (conj eb_offers3 (conj em_proper (conj eb_open_proper (conj eb_other
          (conj eb_post C71_example_open)))))).
Qed.
Print Assumptions C71_found_refuted.

(** [<b></div><br>], for [p] *)
Definition eb_evs5 : list event := [OpeningTag (eo_id "b") []; eb_div; eo_br].
Lemma eb_above : NeverBelow eb_evs5.
Proof. intros [|x [|y [|z [|? ?]]]] c post E; try discriminate. injection E as <- _ _. cbn. lia. Qed.
Example C71_example_unmatched :
  Gives (events [eo_p]) (eb_user eb_evs5 ++ [OSelect false (inl eb_p) em_builder]) (inl eb_evs5).
Proof.
  apply (C71_unmatched (events [eo_p]) (eb_user eb_evs5) false eb_p eb_evs5).
  - apply eb_template.
  - apply eb_offers. no_noop.
  - no_noop.
  - intros ev [<-|[<-|[<-|[]]]]; reflexivity.
  - apply eb_above.
Qed.
Example C71_example_unmatched_below :
  Gives (events [eo_p]) (eb_user (eb_evs5 ++ [eb_div]) ++ [OSelectOnce true (inl eb_p) [ORemove]])
    (inr (SEAssertion (MUnexpectedClosingTag (eo_id "div")))).
Proof.
  apply (C71_unmatched_below (events [eo_p]) (eb_user (eb_evs5 ++ [eb_div])) true eb_p eb_evs5 (eo_id "div") []).
  - apply eb_template.
  - apply eb_offers. no_noop.
  - no_noop.
  - intros ev [<-|[<-|[<-|[<-|[]]]]]; reflexivity.
  - apply eb_above.
  - reflexivity.
Qed.

(** [<p class="a  b" title>1<br></P><p class="a  b" title>1<br></div>2]: removing the
    paragraphs removes all of it. *)
Definition eb_remove : nat -> pipeline := fun _ => [ORemove].
Lemma eb_remove_args : ValidArgs [OSelect false (inl eb_p) eb_remove].
Proof.
  apply valid_args_wrap; try reflexivity. intros q H. inversion H; subst.
  apply valid_args_plain; [intros r X; inversion X|reflexivity..|discriminate].
Qed.
Lemma eb_remove_typed : ElementBuilder eb_remove.
Proof. intros k. exists false. apply typed_one. constructor. Qed.
Definition eb_rest : list event := events eo_kids ++ [eb_div; eo_text "2"].
Lemma eb_never : NeverClosed (eo_id "p") 0 eb_rest.
Proof.
  repeat (apply Never_other; [first [exact (fun H => H)|apply eb_other]|]). constructor.
Qed.
Lemma eb_all_removed : Gives (events [eo_p]) [OSelect false (inl eb_p) eb_remove] (inl []).
Proof.
  apply (C19_select false eb_p [eo_p] [eo_p] [[]]).
  - apply eb_element.
  - apply em_proper.
  - apply eb_remove_typed.
  - apply eb_remove_args.
  - apply (Sel_match eb_p eo_p [] [] [] []); [reflexivity|constructor].
  - split; [reflexivity|]. intros [|[|k]] x r Hx Hr; try discriminate.
    injection Hx as <-. injection Hr as <-. apply C22_remove. exists [eo_p].
    split; [apply em_proper|]. now rewrite events_single.
Qed.
Lemma eb_p_name : ValidName (id_str (eo_id "p")).
Proof. pose proof eb_open_proper as H. inversion H as [|t a k c Ht]. apply Ht. Qed.
Example C71_example_lasts :
  Gives (events [eo_p]) (eb_user eb_evs3 ++ [OSelect false (inl eb_p) eb_remove]) (inl []).
Proof.
  apply (C71_lasts (events [eo_p]) (eb_user eb_evs3) false eb_p eb_remove [eo_p] (eo_id "p") eo_attrs eb_rest
           (inl []) (inl [])).
  - apply eb_template.
  - apply eb_offers3.
  - no_noop.
  - apply em_proper.
  - apply eb_element.
  - apply eb_remove_typed.
  - apply eb_remove_args.
  - reflexivity.
  - apply eb_p_name.
  - apply eb_never.
  - apply eb_all_removed.
  - intros k. constructor.
Qed.
(** [1<br><p class="a  b" title>1<br></div>2]: what is appended to the paragraph comes last. *)
Definition eb_append : pipeline := [OAppend (CStatic (lit "3"))].
Lemma eb_append_args : ValidArgs [OSelectOnce false (inl eb_p) eb_append].
Proof.
  apply valid_args_wrap; try reflexivity. intros q H. inversion H; subst.
  eapply valid_args_ok; [reflexivity|constructor|].
  exists [Leaf (Data (enc_from_unencoded_static_str (lit "3")))]. split; [|reflexivity].
  intros x [<-|[]]. constructor; exact I.
Qed.
Example C71_example_lasts_once :
  Gives (events [eo_p]) (eb_user (events eo_kids ++ eo_open :: eb_rest) ++ [OSelectOnce false (inl eb_p) eb_append])
    (inl (events eo_kids ++ eo_open :: eb_rest ++ [eo_text "3"])).
Proof.
  apply (C71_lasts_once (events [eo_p]) (eb_user (events eo_kids ++ eo_open :: eb_rest)) false eb_p eb_append
           eo_kids (eo_id "p") eo_attrs eb_rest [] (events eo_kids) (inl (eo_open :: eb_rest ++ [eo_text "3"]))).
  - apply eb_template.
  - apply eb_offers. no_noop.
  - no_noop.
  - apply eb_kids_proper.
  - apply eb_element.
  - apply eb_append_args.
  - apply eb_none.
  - reflexivity.
  - apply eb_p_name.
  - apply eb_never.
  - apply (Out_append (eo_open :: eb_rest) (CStatic (lit "3"))). constructor.
Qed.
