(** Properties C50 (exchanging builders that agree), C51 (laws of content calls), C52 (laws of
    attribute calls) and C53 (selections without effect). *)
From Coq Require Import String ZArith List Bool.
From stdpp Require Import gmap.
From Verif Require Import Text Event Input Parse Selector Machine Template.
From Verif Require Import SpecText SpecAttr SpecParse SpecTree SpecTransform SpecOps SpecLaws.
From Verif Require Import TreeProofs ErrorProofs SelectionProofs OpProofs LawProofs LawProofs2 LawProofs3 Prop_Ops.
Local Open Scope nat_scope.

(** ** C50 Builders that agree can be exchanged *)

(** [Agree e0 p q]: [p] and [q] succeed on the same selections, of elements if [e0], and then
    give the same.  [Exchange e0 p q e a b e']: [b] is [a] with occurrences of [p] replaced
    by [q]. *)
Theorem C50_success : forall e0 p q e a b e' ea eb, Agree e0 p q -> Exchange e0 p q e a b e' ->
  ValidArgs p -> ValidArgs q -> typed e a ea -> typed e b eb -> ValidArgs a -> ValidArgs b ->
  Agree e a b.
Proof. exact exchange_success. Qed.
Print Assumptions C50_success.

(** Then they also fail on the same selections. *)
Theorem C50_failure : forall e a b ea eb evs, Agree e a b -> typed e a ea -> typed e b eb ->
  ValidArgs a -> ValidArgs b -> Selection e evs ->
  (exists err, Gives evs a (inr err)) <-> (exists err, Gives evs b (inr err)).
Proof. exact agree_failure. Qed.
Print Assumptions C50_failure.

(** The error reported can change, even if [p] and [q] alone always have the same result:
    what has been passed on before an error is seen by the following calls. *)
Theorem C50_same_error_refuted : exists p q a b evs err err',
  Equal false p q /\ ValidArgs p /\ ValidArgs q /\
  Exchange false p q false a b false /\ typed false a false /\ typed false b false /\
  ValidArgs a /\ ValidArgs b /\
  WellNested evs /\ Gives evs a (inr err) /\ Gives evs b (inr err') /\ err <> err'.
Proof. exact law_errors_change. Qed.
Print Assumptions C50_same_error_refuted.

(** A builder inside a builder. *)
Definition el_text (s : string) : content := CStatic (lit s).
Definition el_before : pipeline := [OPrepend (el_text "x"); OAppend (el_text "y")].
Definition el_after : pipeline := [OAppend (el_text "y"); OPrepend (el_text "x")].
Definition el_program (p : pipeline) : pipeline :=
  [OSelect false (inl (SelTag (eo_id "br")))
     (fun k => OSetId (inl (eo_id "i")) :: p ++ [ORepeat [p; []]])].
Lemma el_text_valid o s : op_content o = Some (el_text s) -> ValidArgs [o].
Proof.
  intros H. eapply valid_args_ok; [exact H|constructor|].
  apply (well_nested_tree (Leaf (Data (enc_from_unencoded_static_str (lit s))))). now constructor.
Qed.
Lemma el_before_valid : ValidArgs el_before.
Proof. apply (valid_args_app [_] [_]); eapply el_text_valid; reflexivity. Qed.
Lemma el_after_valid : ValidArgs el_after.
Proof. apply (valid_args_app [_] [_]); eapply el_text_valid; reflexivity. Qed.
Lemma el_typed e p : p = el_before \/ p = el_after -> typed e p false.
Proof. 
  intros [->| ->]; apply (typed_app e [_] false [_]); apply typed_one;
    first [apply T_prepend|apply T_append].
Qed.
Lemma el_program_valid p : ValidArgs p -> ValidArgs (el_program p).
Proof.
  intros H. apply valid_args_wrap; auto. intros q [k ->].
  apply (valid_args_app [_]); [eapply command_valid; [reflexivity|]|apply valid_args_app; auto].
  - intros i [= <-]. apply eo_valid. vm_compute. eauto.
  - apply repeat_valid. intros r [<-|[<-|[]]]; auto using empty_valid.
Qed.
Lemma el_program_exchange : Exchange false el_before el_after false
  (el_program el_before) (el_program el_after) false.
Proof.
  assert (forall e, Exchange false el_before el_after e el_before el_after false) as H.
  { intros e. apply (Ex_here _ _ _ e false false); [discriminate| |]; apply el_typed; auto. }
  apply (Ex_select _ _ _ _ _ _ _ _ (fun _ => false)). intros k.
  apply (Ex_then _ _ _ _ [_] [_] true); [apply Ex_same, typed_one; constructor|].
  eapply Ex_then; [apply H|]. eapply Ex_repeat.
  apply Each_cons; [apply H|]. apply Each_cons; [apply Ex_same; constructor|constructor].
Qed.
Lemma el_program_typed p : p = el_before \/ p = el_after -> typed false (el_program p) false.
Proof.
  intros H. apply typed_one. constructor. intros k. exists false.
  apply (typed_app true [_] true); [apply typed_one; constructor|]. eapply typed_app; [apply el_typed; exact H|].
  apply typed_one. constructor. constructor; [eexists; apply el_typed; exact H|].
  constructor; [eexists; constructor|constructor].
Qed.
Example C50_example : Agree false (el_program el_before) (el_program el_after).
Proof.
  apply (C50_success false el_before el_after false _ _ false false false);
    auto using el_before_valid, el_after_valid, el_program_valid, el_program_exchange, el_program_typed.
  apply equal_agree, prepend_append; eapply el_text_valid; reflexivity.
Qed.
Example C50_example_result :
  Gives (tree_events eo_p) (el_program el_before)
    (inl [eo_open; eo_text "1"; eo_text "x"; eo_text "x";
          VoidTag (eo_id "br") [Attribute (eo_id "id") (Some (eo_val "i"))];
          eo_text "y"; eo_text "y"; eo_text "x";
          VoidTag (eo_id "br") [Attribute (eo_id "id") (Some (eo_val "i"))]; eo_text "y"; eo_close]).
Proof. exists 200. eexists. vm_compute. reflexivity. Qed.

(** ** C51 Laws of the content calls *)

(** What was done to a selection does not matter if it is then removed or replaced - unless
    it fails. *)
Theorem C51_removed : forall e p e', typed e p e' -> ValidArgs p -> NeverFails e p ->
  Equal e (p ++ [ORemove]) [ORemove].
Proof. exact remove_absorbs. Qed.
Print Assumptions C51_removed.

Theorem C51_replaced : forall e p e' c, typed e p e' -> ValidArgs p -> NeverFails e p ->
  ValidArgs [OReplace c] -> Equal e (p ++ [OReplace c]) [OReplace c].
Proof. exact replace_absorbs. Qed.
Print Assumptions C51_replaced.

(** Pipelines without failing arguments never fail. *)
Theorem C51_never_fails : forall e p e', typed e p e' -> ValidArgs p -> ElementSelectors p ->
  (forall o err, Occurs p o -> ~ SuppliesError o err) -> NeverFails e p.
Proof. exact never_fails. Qed.
Print Assumptions C51_never_fails.

Theorem C51_replace : forall e c, ValidArgs [OReplace c] ->
  Equal e [OReplace c] [ORemove; OAppend c] /\ Equal e [OReplace c] [ORemove; OPrepend c].
Proof. exact (fun e c H => conj (replace_remove_append e c H) (replace_remove_prepend e c H)). Qed.
Print Assumptions C51_replace.

Theorem C51_prepend_append : forall e a b, ValidArgs [OPrepend a] -> ValidArgs [OAppend b] ->
  Equal e [OPrepend a; OAppend b] [OAppend b; OPrepend a].
Proof. exact prepend_append. Qed.
Print Assumptions C51_prepend_append.

Theorem C51_append_append : forall e a b c x y, ContentGives a (inl x) -> ContentGives b (inl y) ->
  ContentGives c (inl (x ++ y)) -> ValidArgs [OAppend a] -> ValidArgs [OAppend b] ->
  Equal e [OAppend a; OAppend b] [OAppend c].
Proof. exact append_append. Qed.
Print Assumptions C51_append_append.

Theorem C51_prepend_prepend : forall e a b c x y, ContentGives a (inl x) -> ContentGives b (inl y) ->
  ContentGives c (inl (y ++ x)) -> ValidArgs [OPrepend a] -> ValidArgs [OPrepend b] ->
  Equal e [OPrepend a; OPrepend b] [OPrepend c].
Proof. exact prepend_prepend. Qed.
Print Assumptions C51_prepend_prepend.

Theorem C51_repeat_one : forall e p e', typed e p e' -> ValidArgs p -> Equal e [ORepeat [p]] p.
Proof. exact repeat_once. Qed.
Print Assumptions C51_repeat_one.

Theorem C51_repeat_none : forall e, Equal e [ORepeat []] [ORemove].
Proof. exact repeat_never. Qed.
Print Assumptions C51_repeat_none.

(** Two calls on the contents are one call that does both.  With the next theorem all laws
    above hold for the calls on contents. *)
Theorem C51_contents_then : forall p q e e', typed false p e -> typed false q e' ->
  ValidArgs p -> ValidArgs q ->
  Equal true [OSubselectContents p; OSubselectContents q] [OSubselectContents (p ++ q)].
Proof. exact contents_then. Qed.
Print Assumptions C51_contents_then.

Theorem C51_contents_call : forall o o' e, ContentsOf o o' -> typed true [o] e -> ValidArgs [o] ->
  Equal true [o] [OSubselectContents [o']].
Proof. exact contents_call. Qed.
Print Assumptions C51_contents_call.

(** The builder of C50 never fails. *)
Example C51_example_never : NeverFails true el_before.
Proof.
  apply (C51_never_fails true el_before false).
  - apply el_typed. auto.
  - apply el_before_valid.
  - intros o m Ho. change el_before with ([OPrepend (el_text "x")] ++ [OAppend (el_text "y")]) in Ho.
    apply occurs_app in Ho as [Ho|Ho]; apply occurs_one in Ho; try (simpl; now auto); subst; discriminate.
  - intros o err Ho. change el_before with ([OPrepend (el_text "x")] ++ [OAppend (el_text "y")]) in Ho.
    apply occurs_app in Ho as [Ho|Ho]; apply occurs_one in Ho; try (simpl; now auto); subst;
      (intros [H|[(i & H & _)|[(c & H & Hc)|(f & x & H & _)]]]; try discriminate;
       injection H as <-; inversion Hc).
Qed.
Example C51_example : Equal true (el_before ++ [OReplace (el_text "z")]) [OReplace (el_text "z")].
Proof.
  apply (C51_replaced true el_before false); auto using el_before_valid, C51_example_never.
  - apply el_typed. auto.
  - eapply el_text_valid. reflexivity.
Qed.
Example C51_example_append : Equal false [OAppend (el_text "x"); OAppend (CTemplate (tree_events eo_p))]
  [OAppend (CTemplate (eo_text "x" :: tree_events eo_p))].
Proof.
  apply (C51_append_append false _ _ _ [eo_text "x"] (tree_events eo_p));
    [constructor|constructor|constructor| |].
  - eapply el_text_valid. reflexivity.
  - eapply valid_args_ok; [reflexivity|constructor|apply well_nested_tree, eo_p_proper].
Qed.
Example C51_example_contents :
  Equal true [OPrependContents (el_text "x")] [OSubselectContents [OPrepend (el_text "x")]] /\
  Equal true [OSubselectContents el_before; OSubselectContents [ORemove]]
             [OSubselectContents (el_before ++ [ORemove])].
Proof.
  split.
  - apply (C51_contents_call _ _ true (CO_prepend _)); [apply typed_one; constructor|].
    eapply el_text_valid. reflexivity.
  - apply (C51_contents_then _ _ false false); auto using el_before_valid, remove_valid.
    + apply el_typed. auto.
    + apply typed_one. constructor.
Qed.

(** ** C52 Laws of the attribute calls *)

(** [About o n]: the call [o] changes the attributes named [n].  Its name has to be an
    identifier, like all [Identifier] values. *)

(** Attribute calls and calls on the contents do not depend on each other; not even the error
    does. *)
Theorem C52_contents : forall o k k' e, attribute_op o -> ContentsOf k k' -> typed true [k] e ->
  ValidArgs [o] -> ValidArgs [k] -> Equal true [o; k] [k; o].
Proof. exact attribute_contents. Qed.
Print Assumptions C52_contents.

(** Setting or removing an attribute makes earlier changes of it superfluous. *)
Theorem C52_set_later : forall o n i v, About o n ->
  (forall i, op_name o = Some (inl i) -> ValidName (id_str i)) ->
  ValidName (id_str i) -> SameName n (id_str i) ->
  Equal true [o; OSetAttribute (inl i) v] [OSetAttribute (inl i) v].
Proof. exact set_later. Qed.
Print Assumptions C52_set_later.

Theorem C52_removed_later : forall o n i, About o n ->
  (forall i, op_name o = Some (inl i) -> ValidName (id_str i)) ->
  ValidName (id_str i) -> SameName n (id_str i) ->
  Equal true [o; ORemoveAttribute (inl i)] [ORemoveAttribute (inl i)].
Proof. exact removed_later. Qed.
Print Assumptions C52_removed_later.

Theorem C52_set : forall i v, ValidName (id_str i) ->
  Equal true [ORemoveAttribute (inl i); OAddAttribute (inl i) v] [OSetAttribute (inl i) v].
Proof. exact remove_add_set. Qed.
Print Assumptions C52_set.

(** Removing an attribute commutes with changes of others. *)
Theorem C52_remove_commutes : forall o n i, About o n ->
  (forall i, op_name o = Some (inl i) -> ValidName (id_str i)) ->
  ValidName (id_str i) -> ~ SameName n (id_str i) ->
  Equal true [o; ORemoveAttribute (inl i)] [ORemoveAttribute (inl i); o].
Proof. exact remove_commutes. Qed.
Print Assumptions C52_remove_commutes.

(** Setting different attributes does not commute: what is set last is written last. *)
Theorem C52_set_commutes_refuted : exists i j v evs r r',
  ValidName (id_str i) /\ ValidName (id_str j) /\ ~ SameName (id_str i) (id_str j) /\
  Selection true evs /\
  Gives evs [OSetAttribute (inl i) v; OSetAttribute (inl j) v] (inl r) /\
  Gives evs [OSetAttribute (inl j) v; OSetAttribute (inl i) v] (inl r') /\
  display_events r <> display_events r'.
Proof. exact set_order. Qed.
Print Assumptions C52_set_commutes_refuted.

Example C52_example_contents : Equal true [OAddClass (inl (eo_id "a")); ORemoveContents]
  [ORemoveContents; OAddClass (inl (eo_id "a"))].
Proof.
  apply (C52_contents (OAddClass (inl (eo_id "a"))) _ _ true I CO_remove).
  - apply typed_one. constructor.
  - eapply command_valid; [reflexivity|]. intros i [= <-]. apply eo_valid. vm_compute. eauto.
  - apply valid_args_plain; simpl; auto; discriminate.
Qed.
(** A class is added and the attribute removed, in another case. *)
Example C52_example_removed : Equal true [OAddClass (inl (eo_id "a")); ORemoveAttribute (inl (eo_id "CLASS"))]
  [ORemoveAttribute (inl (eo_id "CLASS"))].
Proof.
  apply (C52_removed_later _ _ _ (About_add_class _)).
  - intros i [= <-]. apply eo_valid. vm_compute. eauto.
  - apply eo_valid. vm_compute. eauto.
  - apply TextProofs.eq_ignore_spec. vm_compute. reflexivity.
Qed.
Example C52_example_commutes : Equal true [OAddClass (inl (eo_id "a")); ORemoveAttribute (inl (eo_id "title"))]
  [ORemoveAttribute (inl (eo_id "title")); OAddClass (inl (eo_id "a"))].
Proof.
  apply (C52_remove_commutes _ _ _ (About_add_class _)).
  - intros i [= <-]. apply eo_valid. vm_compute. eauto.
  - apply eo_valid. vm_compute. eauto.
  - rewrite <- TextProofs.eq_ignore_spec. vm_compute. discriminate.
Qed.

(** ** C53 Selections without effect *)

(** Selecting elements and doing nothing to them does nothing. *)
Theorem C53_select_nothing : forall e d m, ElementSelector m ->
  Equal e [OSelect d (inl m) (fun _ => [])] [].
Proof. exact select_nothing. Qed.
Print Assumptions C53_select_nothing.

Theorem C53_select_once_nothing : forall e d m, ElementSelector m ->
  Equal e [OSelectOnce d (inl m) []] [].
Proof. exact once_nothing. Qed.
Print Assumptions C53_select_once_nothing.

(** After removing all that matches, nothing does. *)
Theorem C53_select_removed : forall e d m b, ElementSelector m -> ElementBuilder b ->
  (forall k, ValidArgs (b k)) ->
  Equal e [OSelect d (inl m) (fun _ => [ORemove]); OSelect d (inl m) b]
          [OSelect d (inl m) (fun _ => [ORemove])].
Proof. exact select_removed. Qed.
Print Assumptions C53_select_removed.

Lemma el_selector : ElementSelector (SelTag (eo_id "br")).
Proof. apply library_selector. discriminate. Qed.
Example C53_example : Equal false
  [OSelect false (inl (SelTag (eo_id "br"))) (fun _ => [ORemove]);
   OSelect false (inl (SelTag (eo_id "br"))) (fun _ => [OAppend (CResult (inr (SEIdentifier IdEmpty)))])]
  [OSelect false (inl (SelTag (eo_id "br"))) (fun _ => [ORemove])].
Proof.
  apply C53_select_removed; [apply el_selector| |].
  - intros k. eexists. apply typed_one. constructor.
  - intros k. eapply valid_args_err. reflexivity.
Qed.
Example C53_example_result : Gives (tree_events eo_p)
  [OSelect false (inl (SelTag (eo_id "br"))) (fun _ => [ORemove])] (inl [eo_open; eo_text "1"; eo_close]).
Proof. exists 100. eexists. vm_compute. reflexivity. Qed.
