(** Statements about single calls, put together from the general ones. *)
From Coq Require Import String ZArith.
From stdpp Require Import gmap.
From Verif Require Import Text Event Input Parse Selector Machine Template StreamBase.
From Verif Require Import SpecText SpecAttr SpecParse SpecTree SpecTransform SpecOps.
From Verif Require Import TextProofs ParseProofs3.
From Verif Require Import Trace TraceProofs PipelineProofs FuelProofs TreeProofs ReachProofs.
From Verif Require Import StreamProofs StreamProofs2 StreamProofs3 ErrorProofs SelectionProofs OpProofs ApiProofs.
From Verif Require Api.
Local Open Scope nat_scope.

(** ** Termination *)

Lemma obtainable_total evs p e : Obtainable Nothing evs -> typed false p e -> ObtainableArgs p ->
  exists r, Gives evs p r /\ forall r', Gives evs p r' -> r' = r.
Proof.
  intros Ho Ht Hv. destruct (transform_total evs p e) as [r Hr];
    auto using obtainable_template, obtainable_args_valid.
  exists r. split; auto. intros r' Hr'. eapply gives_det; eauto.
Qed.
Lemma obtainable_no_panic evs p e : Obtainable Nothing evs -> typed false p e -> ObtainableArgs p ->
  forall n, transform n evs p <> Panicked.
Proof. intros Ho Ht Hv. eapply transform_no_panic; eauto using obtainable_template, obtainable_args_valid. Qed.
Lemma obtainable_enough evs p e : Obtainable Nothing evs -> typed false p e -> ObtainableArgs p ->
  exists n, forall m, n <= m -> transform m evs p <> OutOfFuel.
Proof.
  intros Ho Ht Hv. destruct (obtainable_total evs p e) as (r & (n & h & Hr) & _); auto.
  exists n. intros m Hm. rewrite (transform_done n m evs p h r Hm Hr). discriminate.
Qed.
Lemma obtainable_no_internal evs p e err : Obtainable Nothing evs -> typed false p e -> ObtainableArgs p ->
  (forall o m f, Occurs p o -> op_selector o = Some (inl m) -> m <> SelCustom f) ->
  (forall o i, Occurs p o -> SuppliesError o i -> ~ Internal i) ->
  Gives evs p (inr err) -> ~ Internal err.
Proof.
  intros Ho Ht Hv Hm Hi Hg.
  destruct (errors_given evs p e err) as (o & Hoc & Hs); eauto using obtainable_template, obtainable_args_valid.
  intros o m Hoc Hs. apply library_selector. intros f. eapply Hm; eauto.
Qed.
Lemma built_total tag p e : ValidTag tag -> typed true p e -> ObtainableArgs p ->
  (exists n h r, with_transformed_element n (inl tag) p = Done h r) /\
  forall n, with_transformed_element n (inl tag) p <> Panicked.
Proof.
  intros Htag Ht Hv.
  assert (WellNested [if is_void_tag (id_str tag) then VoidTag tag [] else SelfClosedTag tag []]) as Hw.
  { eapply with_element_well_nested; [exact Htag|reflexivity]. }
  assert (ValidArgs [OSelectOnce false (inl (SelTag tag)) p]) as Hv'.
  { apply valid_args_select_once. now apply obtainable_args_valid. }
  assert (typed false [OSelectOnce false (inl (SelTag tag)) p] false) as Ht'.
  { apply typed_one. econstructor; eauto. }
  split.
  - destruct (transform_total _ _ _ Hw Ht' Hv') as (r & n & h & Hr). exists n, h, r. exact Hr.
  - exact (transform_no_panic _ _ _ Hw Ht' Hv').
Qed.

(** ** Reachable templates *)

Lemma obtainable_events evs : Obtainable Nothing evs ->
  Forest evs /\ forall ev, In ev evs -> ValidEvent ev /\ ev <> Noop.
Proof.
  intros H. apply obtainable_template in H. split; [now apply well_nested_forest|].
  intros ev. now apply well_nested_valid.
Qed.

(** ** Contents *)

Section Contents.
Variables (x : tree) (op : event) (kids : list tree) (cl : event).
Hypothesis Hp : ProperTree x.
Hypothesis Hi : Inside x op kids cl.
Let Hkids : WellNested (events kids).
Proof. apply well_nested_events. eapply inside_proper; eauto. Defined.

Lemma remove_contents_result : Gives (tree_events x) [ORemoveContents] (inl [op; cl]).
Proof.
  change (inl [op; cl] : list event + stream_error) with (around [op] (inl []) [cl]).
  eapply (contents_result _ _ x op kids cl true);
    [constructor|apply typed_one; constructor| |exact Hp|exact Hi|eauto using remove_result].
  now apply valid_args_plain; simpl.
Qed.
Lemma contents_builds o g cb : Builds g (build_content cb) false false -> Strict g false ->
  build [o] = (fun h s => Done h (select_content_new s cb)) ->
  Gives (tree_events x) [o] (around [op] (outcome (g (events kids, None))) [cl]).
Proof.
  intros Hb Hs Ebuild. rewrite <- (contents_trace _ _ _ _ _ Hi).
  destruct (transform_builds (tree_events x) [o] (d_contents g) true true) as [h Hh].
  - apply good_element; [exact Hp|eapply inside_element; eauto].
  - rewrite Ebuild. eapply builds_contents_strict; eauto.
  - eapply ev_gives; eauto.
Qed.
Lemma contents_content c o : NoNoop (fst (d_content c)) ->
  (o = OReplaceContents c -> Gives (tree_events x) [o]
     (around [op] (outcome (tapp (d_content c) ([], None))) [cl])) /\
  (o = OAppendContents c -> Gives (tree_events x) [o]
     (around [op] (outcome (tapp (events kids, None) (d_content c))) [cl])) /\
  (o = OPrependContents c -> Gives (tree_events x) [o]
     (around [op] (outcome (tapp (d_content c) (events kids, None))) [cl])).
Proof.
  intros Hn. split; [|split]; intros ->.
  - apply (contents_builds _ (fun x => tapp (d_content c) (d_remove x)) (CBReplace (into_stream c)));
      [now apply builds_replace| |reflexivity].
    intros evs e _. unfold tapp. destruct (snd (d_content c)) eqn:E; simpl; congruence.
  - apply (contents_builds _ (fun x => tapp x (d_content c)) (CBAppend (into_stream c)));
      [now apply builds_append| |reflexivity].
    intros evs e _. discriminate.
  - apply (contents_builds _ (fun x => tapp (d_content c) x) (CBPrepend (into_stream c)));
      [now apply builds_prepend| |reflexivity].
    intros evs e _. unfold tapp. destruct (snd (d_content c)) eqn:E; simpl; congruence.
Qed.
Lemma replace_contents_result c r : ContentGives c (inl r) -> ~ In Noop r ->
  Gives (tree_events x) [OReplaceContents c] (inl (op :: r ++ [cl])).
Proof.
  intros Hc Hr. pose proof (no_noop_content _ _ Hc Hr) as Hn.
  pose proof (proj1 (contents_content c _ Hn) eq_refl) as Hg.
  rewrite (content_trace _ _ Hc) in Hg. unfold tapp, outcome in Hg. simpl in Hg. now rewrite app_nil_r in Hg.
Qed.
Lemma append_contents_result c r : ContentGives c (inl r) -> ~ In Noop r ->
  Gives (tree_events x) [OAppendContents c] (inl (op :: events kids ++ r ++ [cl])).
Proof.
  intros Hc Hr. pose proof (no_noop_content _ _ Hc Hr) as Hn.
  pose proof (proj1 (proj2 (contents_content c _ Hn)) eq_refl) as Hg.
  rewrite (content_trace _ _ Hc) in Hg. unfold tapp, outcome in Hg. simpl in Hg. now rewrite <- app_assoc in Hg.
Qed.
Lemma prepend_contents_result c r : ContentGives c (inl r) -> ~ In Noop r ->
  Gives (tree_events x) [OPrependContents c] (inl (op :: r ++ events kids ++ [cl])).
Proof.
  intros Hc Hr. pose proof (no_noop_content _ _ Hc Hr) as Hn.
  pose proof (proj2 (proj2 (contents_content c _ Hn)) eq_refl) as Hg.
  rewrite (content_trace _ _ Hc) in Hg. unfold tapp, outcome in Hg. simpl in Hg. now rewrite <- app_assoc in Hg.
Qed.
Lemma contents_failure c o err :
  o = OReplaceContents c \/ o = OAppendContents c \/ o = OPrependContents c ->
  ContentGives c (inr err) -> Gives (tree_events x) [o] (inr err).
Proof.
  intros Ho Hc. pose proof (failing_no_noop _ _ Hc) as Hn. apply content_trace_error in Hc.
  destruct (contents_content c o Hn) as (H1 & H2 & H3). unfold tapp, outcome in *. simpl in *. rewrite Hc in *.
  destruct Ho as [Ho|[Ho|Ho]]; [now apply H1|now apply H2|now apply H3].
Qed.

Lemma contents_select d m b r : ElementBuilder b -> ValidArgs [OSubselect d (inl m) b] ->
  Gives (events kids) [OSelect d (inl m) b] r ->
  Gives (tree_events x) [OSubselect d (inl m) b] (around [op] r [cl]).
Proof.
  intros Hb Hv Hg. eapply (contents_result _ _ x op kids cl true); eauto; [constructor|]. apply typed_one. now constructor.
Qed.
Lemma contents_select_once d m p e r : typed true p e -> ValidArgs [OSubselectOnce d (inl m) p] ->
  Gives (events kids) [OSelectOnce d (inl m) p] r ->
  Gives (tree_events x) [OSubselectOnce d (inl m) p] (around [op] r [cl]).
Proof.
  intros Hb Hv Hg. eapply (contents_result _ _ x op kids cl true); eauto; [constructor|]. apply typed_one. econstructor; eauto.
Qed.
Lemma contents_apply p e r : typed false p e -> ValidArgs p ->
  Gives (events kids) p r -> Gives (tree_events x) [OSubselectContents p] (around [op] r [cl]).
Proof.
  intros Ht Hv Hg. eapply (contents_result _ _ x op kids cl true); eauto; [constructor| | |].
  - apply typed_one. econstructor; eauto.
  - apply valid_args_wrap; simpl; auto. now intros q ->.
  - assert (Applies (OApply p) p) as Ha by now left.
    pose proof (applies_result (OApply p) p false [] [] e (events kids) r Ha Hkids) as H.
    simpl in H. rewrite app_nil_r in H. apply H; auto.
    + apply typed_one. now constructor.
    + apply valid_args_wrap; simpl; auto. now intros q ->.
Qed.

Lemma repeat_contents_items {T} (items : list T) b rs :
  (forall k item, exists e', typed false (b k item) e') -> ValidArgs [Api.repeat_contents items b] ->
  length items = length rs ->
  (forall k item r, nth_error items k = Some item -> nth_error rs k = Some r ->
     Gives (events kids) (b k item) (inl r)) ->
  Gives (tree_events x) [Api.repeat_contents items b] (inl (op :: List.concat rs ++ [cl])).
Proof.
  intros Ht Hv Hl Hg.
  change (inl (op :: List.concat rs ++ [cl]) : list event + stream_error)
    with (around [op] (inl (List.concat rs)) [cl]).
  unfold Api.repeat_contents in *. eapply (contents_result _ _ x op kids cl true); eauto; [constructor| |].
  - apply typed_one. constructor. now apply imap_typed.
  - eapply (repeat_result false); eauto using imap_typed, imap_results.
    apply (contents_of_valid (ORepeatContents (imap b items)) (ORepeat (imap b items))); auto. constructor.
Qed.
Lemma repeat_contents_items_failure {T} (items : list T) b k item err :
  (forall k item, exists e', typed false (b k item) e') -> ValidArgs [Api.repeat_contents items b] ->
  nth_error items k = Some item -> Gives (events kids) (b k item) (inr err) ->
  (forall j item, j < k -> nth_error items j = Some item ->
     exists r, Gives (events kids) (b j item) (inl r)) ->
  Gives (tree_events x) [Api.repeat_contents items b] (inr err).
Proof.
  intros Ht Hv Hk He Hj. change (inr err : list event + stream_error) with (around [op] (inr err) [cl]).
  unfold Api.repeat_contents in *. eapply (contents_result _ _ x op kids cl true); eauto; [constructor| |].
  - apply typed_one. constructor. now apply imap_typed.
  - apply (repeat_items_failure false (events kids) items b k item err); auto.
    apply (contents_of_valid (ORepeatContents (imap b items)) (ORepeat (imap b items))); auto. constructor.
Qed.
End Contents.

(** ** Fallbacks *)

Lemma repeat_or_else_none {T} e evs (b : nat -> T -> pipeline) p e' r : Selection e evs ->
  typed e p e' -> ValidArgs p ->
  (Gives evs [Api.repeat_or_else [] b p] r <-> Gives evs p r).
Proof. apply or_else_empty. Qed.
Lemma imap_nonempty {T} (items : list T) (b : nat -> T -> pipeline) : items <> [] -> imap b items <> [].
Proof. now destruct items. Qed.
Lemma repeat_or_else_some {T} e evs (items : list T) (b : nat -> T -> pipeline) p e' r : items <> [] ->
  Selection e evs -> typed e [Api.repeat_or_else items b p] e' -> ValidArgs [Api.repeat_or_else items b p] ->
  (Gives evs [Api.repeat_or_else items b p] r <-> Gives evs [Api.repeat items b] r).
Proof. intros Hn. apply or_else_items. now apply imap_nonempty. Qed.
Lemma repeat_contents_or_else_none {T} x (b : nat -> T -> pipeline) p e' r : ProperTree x -> IsElement x ->
  typed true p e' -> ValidArgs p ->
  (Gives (tree_events x) [Api.repeat_contents_or_else [] b p] r <-> Gives (tree_events x) p r).
Proof. apply contents_or_else_empty. Qed.
Lemma repeat_contents_or_else_some {T} x (items : list T) (b : nat -> T -> pipeline) p e' r : items <> [] ->
  ProperTree x -> IsElement x -> typed true [Api.repeat_contents_or_else items b p] e' ->
  ValidArgs [Api.repeat_contents_or_else items b p] ->
  (Gives (tree_events x) [Api.repeat_contents_or_else items b p] r <->
   Gives (tree_events x) [Api.repeat_contents items b] r).
Proof. intros Hn. apply contents_or_else_items. now apply imap_nonempty. Qed.

(** ** Conditional application *)

Lemma applies_same o q : Applies o q -> Same o q.
Proof. intros Ha e p1 p2 e' evs r. now apply applies_result. Qed.
Lemma apply_same p : Same (OApply p) p.
Proof. apply applies_same. now left. Qed.
Lemma boxed_same : Same OIntoBoxed [].
Proof. apply applies_same. right. right. auto. Qed.
Lemma boxed_element_same : Same OIntoBoxedElement [].
Proof. apply applies_same. right. right. auto. Qed.
Lemma apply_if_same b p other : Same (Api.apply_if b p other) (if b then p else []).
Proof. apply applies_same, apply_if_applies. Qed.
Lemma apply_if_else_same b p q other : Same (Api.apply_if_else b p q other) (if b then p else q).
Proof. apply applies_same, apply_if_else_applies. Qed.
Lemma apply_with_option_same {T} (v : option T) f q other :
  Same (Api.apply_with_option v f q other) (match v with Some t => f t | None => q end).
Proof. apply applies_same, apply_with_option_applies. Qed.
Lemma apply_with_result_same {T E} (v : T + E) f g other :
  Same (Api.apply_with_result v f g other) (match v with inl t => f t | inr e => g e end).
Proof. apply applies_same, apply_with_result_applies. Qed.
Lemma valid_args_in_apply p1 o q p2 : Applies o q -> ValidArgs (p1 ++ o :: p2) -> ValidArgs (p1 ++ q ++ p2).
Proof.
  intros Ha Hv. apply valid_args_app; [eapply valid_args_app_l; eauto|].
  apply valid_args_app_r in Hv. change (o :: p2) with ([o] ++ p2) in Hv.
  apply valid_args_app; [|eapply valid_args_app_r; eauto].
  eapply applies_valid; eauto. eapply valid_args_app_l; eauto.
Qed.
Lemma as_boxed_result o e b evs r q : o = OIntoBoxed \/ o = OIntoBoxedElement ->
  Selection e evs -> typed e [OApply (o :: q)] b -> ValidArgs [OApply (o :: q)] ->
  (Gives evs [OApply (o :: q)] r <-> Gives evs q r).
Proof.
  intros Ho Hs Ht Hv.
  assert (Applies (OApply (o :: q)) (o :: q)) as Ha by now left.
  pose proof (applies_same _ _ Ha e [] [] b evs r Hs Ht Hv) as H1. simpl in H1. rewrite app_nil_r in H1.
  rewrite H1.
  assert (Applies o []) as Hb by (right; right; auto).
  inversion Ht as [|? ? ? ? ? Hop Hn]; subst. inversion Hop as [? ? ? Hq| | | | | | | | | | | | | | | | | | | | | | | | | | | | | |]; subst.
  pose proof (applies_same _ _ Hb e [] q _ evs r Hs Hq) as H2. simpl in H2. rewrite H2; [reflexivity|].
  eapply valid_args_sub; [exact Hv|now left|reflexivity].
Qed.
Lemma as_boxed_same e b evs r q : Selection e evs -> typed e [Api.apply_as_boxed q] b ->
  ValidArgs [Api.apply_as_boxed q] -> (Gives evs [Api.apply_as_boxed q] r <-> Gives evs q r).
Proof. apply as_boxed_result. auto. Qed.
Lemma as_boxed_element_same e b evs r q : Selection e evs -> typed e [Api.apply_as_boxed_element q] b ->
  ValidArgs [Api.apply_as_boxed_element q] -> (Gives evs [Api.apply_as_boxed_element q] r <-> Gives evs q r).
Proof. apply as_boxed_result. auto. Qed.

Lemma as_template_after e p e' evs mid f : Selection e evs -> typed e p e' -> ValidArgs p ->
  (forall x y, WellNested x -> f x = inl y -> WellNested y) ->
  Gives evs p (inl mid) -> Gives evs (p ++ [OApplyAsTemplate f]) (f mid).
Proof.
  intros Hs Ht Hv Hf Hg.
  assert (ValidArgs [OApplyAsTemplate f]) as Hvf.
  { split; [|split; [|split]].
    - intros o i Ho Hn. apply occurs_one in Ho as ->; [discriminate|now intros q].
    - intros o y Ho [c [Hc _]]. apply occurs_one in Ho as ->; [discriminate|now intros q].
    - intros o f' y z Ho Hf'. apply occurs_one in Ho as ->; [|now intros q]. injection Hf' as <-. apply Hf.
    - intros o y Ho [c [Hc _]]. apply occurs_one in Ho as ->; [discriminate|now intros q]. }
  apply (chain_result e p [OApplyAsTemplate f] false evs mid); auto.
  - apply typed_app. exists e'. split; auto. apply typed_one. constructor.
  - now apply valid_args_app.
  - apply as_template_result; auto. eapply selection_well_nested. eapply gives_selection; eauto.
Qed.

(** ** Element construction *)

Lemma with_element_result tag : ValidTag tag ->
  (VoidName (id_str tag) -> with_element (inl tag) = inl [VoidTag tag []]) /\
  (~ VoidName (id_str tag) -> with_element (inl tag) = inl [SelfClosedTag tag []]).
Proof.
  intros Ht. split; intros Hv; simpl.
  - apply is_void_spec in Hv; auto. now rewrite Hv.
  - apply is_void_false in Hv; auto. now rewrite Hv.
Qed.
Lemma built_result tag p e r x : ValidTag tag -> typed true p e -> ValidArgs p ->
  (VoidName (id_str tag) /\ x = VoidTag tag [] \/ ~ VoidName (id_str tag) /\ x = SelfClosedTag tag []) ->
  ((exists n h, with_transformed_element n (inl tag) p = Done h r) <-> Gives [x] p r).
Proof.
  intros Ht Hp Hv Hx. rewrite (with_transformed_result tag p e r) by auto.
  destruct (with_element_result tag Ht) as [H1 H2]. split.
  - intros (evs & He & Hg). destruct Hx as [[Hn ->] | [Hn ->]]; [rewrite (H1 Hn) in He|rewrite (H2 Hn) in He];
      injection He as <-; exact Hg.
  - intros Hg. exists [x]. split; auto. destruct Hx as [[Hn ->] | [Hn ->]]; auto.
Qed.
Lemma element_named s : ValidName s ->
  (VoidName s -> with_element (Api.into_identifier (Api.IAStatic s)) = inl [VoidTag (Ident (StaticStr s)) []]) /\
  (~ VoidName s ->
   with_element (Api.into_identifier (Api.IAStatic s)) = inl [SelfClosedTag (Ident (StaticStr s)) []]).
Proof.
  intros Hs. simpl. rewrite (proj2 (ident_from_static_str_iff s (Ident (StaticStr s)))) by auto.
  now apply (with_element_result (Ident (StaticStr s))).
Qed.
Lemma element_invalid s p : ~ ValidName s ->
  exists i, NameError s i /\ with_element (Api.into_identifier (Api.IAStatic s)) = inr i /\
    forall n, exists h, with_transformed_element n (Api.into_identifier (Api.IAStatic s)) p
                        = Done h (inr (SEIdentifier i)).
Proof.
  intros Hs. simpl. destruct (ident_from_static_str s) as [i|i] eqn:E.
  - apply ident_from_static_str_iff in E as [E _]. contradiction.
  - exists i. split; [now apply ident_from_static_str_err|]. split; [reflexivity|]. intros n. eexists. reflexivity.
Qed.

(** ** Arguments of concrete pipelines *)

Definition TextContent (c : content) : Prop :=
  match c with CData _ | CValue _ | CStatic _ | CInt _ => True | _ => False end.
Lemma text_content c evs : TextContent c -> ContentGives c (inl evs) -> exists d, evs = [Data d].
Proof. intros Hc Hg. inversion Hg; subst; simpl in Hc; try contradiction; eauto. Qed.

Lemma obtainable_args_nil : ObtainableArgs [].
Proof.
  split; [|split; [|split]]; intros o; intros; exfalso;
  match goal with Ho : Occurs [] _ |- _ => inversion Ho; simpl in *; contradiction end.
Qed.
Lemma obtainable_args_app p q : ObtainableArgs p -> ObtainableArgs q -> ObtainableArgs (p ++ q).
Proof.
  intros (H1 & H2 & H3 & H4) (K1 & K2 & K3 & K4). split; [|split; [|split]].
  - intros o i Ho. apply occurs_app in Ho as [Ho|Ho]; eauto.
  - intros o x Ho. apply occurs_app in Ho as [Ho|Ho]; eauto.
  - intros o f x y Ho. apply occurs_app in Ho as [Ho|Ho]; eauto.
  - intros o x Ho. apply occurs_app in Ho as [Ho|Ho]; eauto.
Qed.
Lemma obtainable_args_cons o p : ObtainableArgs [o] -> ObtainableArgs p -> ObtainableArgs (o :: p).
Proof. apply (obtainable_args_app [o] p). Qed.
Lemma obtainable_args_wrap o : op_content o = None -> op_function o = None ->
  (forall i, op_name o = Some (inl i) -> ValidName (id_str i)) ->
  (forall q, Sub o q -> ObtainableArgs q) -> ObtainableArgs [o].
Proof.
  intros H1 H2 H3 Hq.
  assert (forall x, Occurs [o] x -> x = o \/ exists q, Sub o q /\ Occurs q x) as Hocc.
  { intros x Hx. inversion Hx; subst.
    - destruct H as [->|[]]. auto.
    - destruct H as [->|[]]. eauto. }
  split; [|split; [|split]].
  - intros x i Hx. apply Hocc in Hx as [->|(q & Hs & Hx)]; [apply H3|]. now apply (Hq q Hs).
  - intros x evs Hx Hsup. apply Hocc in Hx as [->|(q & Hs & Hx)].
    + destruct Hsup as (c & Hc & _). congruence.
    + apply (Hq q Hs) in Hsup; auto.
  - intros x f y z Hx. apply Hocc in Hx as [->|(q & Hs & Hx)]; [congruence|]. now apply (Hq q Hs).
  - intros x evs Hx Hsup. apply Hocc in Hx as [->|(q & Hs & Hx)].
    + destruct Hsup as (c & Hc & _). congruence.
    + apply (Hq q Hs) in Hsup; auto.
Qed.
Lemma obtainable_args_text o c : op_content o = Some c -> TextContent c -> ObtainableArgs [o].
Proof.
  intros Hc Ht.
  assert (forall q, ~ Sub o q) as Hs by (intros q; destruct o; simpl in *; congruence || tauto).
  assert (op_name o = None /\ op_function o = None) as [Hn Hf] by (destruct o; simpl in *; auto; discriminate).
  split; [|split; [|split]].
  - intros x i Hx. apply occurs_one in Hx as ->; auto. congruence.
  - intros x evs Hx (c' & Hc' & Hg). apply occurs_one in Hx as ->; auto. rewrite Hc in Hc'. injection Hc' as <-.
    destruct (text_content c evs Ht Hg) as [d ->]. apply Ob_text.
  - intros x f y z Hx. apply occurs_one in Hx as ->; auto. congruence.
  - intros x evs' Hx (c' & Hc' & Hg). apply occurs_one in Hx as ->; auto. rewrite Hc in Hc'. injection Hc' as <-.
    inversion Hg; subst; contradiction.
Qed.
Lemma obtainable_args_template o evs : op_content o = Some (CTemplate evs) -> Obtainable Nothing evs ->
  ObtainableArgs [o].
Proof.
  intros Hc Ht.
  assert (forall q, ~ Sub o q) as Hs by (intros q; destruct o; simpl in *; congruence || tauto).
  assert (op_name o = None /\ op_function o = None) as [Hn Hf] by (destruct o; simpl in *; auto; discriminate).
  split; [|split; [|split]].
  - intros x i Hx. apply occurs_one in Hx as ->; auto. congruence.
  - intros x evs' Hx (c' & Hc' & Hg). apply occurs_one in Hx as ->; auto. rewrite Hc in Hc'. injection Hc' as <-.
    inversion Hg; subst. exact Ht.
  - intros x f y z Hx. apply occurs_one in Hx as ->; auto. congruence.
  - intros x evs' Hx (c' & Hc' & Hg). apply occurs_one in Hx as ->; auto. rewrite Hc in Hc'. injection Hc' as <-.
    inversion Hg.
Qed.
Lemma obtainable_args_failing o e : op_content o = Some (CResult (inr e)) -> ObtainableArgs [o].
Proof.
  intros Hc.
  assert (forall q, ~ Sub o q) as Hs by (intros q; destruct o; simpl in *; congruence || tauto).
  assert (op_name o = None /\ op_function o = None) as [Hn Hf] by (destruct o; simpl in *; auto; discriminate).
  split; [|split; [|split]].
  - intros x i Hx. apply occurs_one in Hx as ->; auto. congruence.
  - intros x evs' Hx (c' & Hc' & Hg). apply occurs_one in Hx as ->; auto. rewrite Hc in Hc'. injection Hc' as <-.
    inversion Hg.
  - intros x f y z Hx. apply occurs_one in Hx as ->; auto. congruence.
  - intros x evs' Hx (c' & Hc' & Hg). apply occurs_one in Hx as ->; auto. rewrite Hc in Hc'. injection Hc' as <-.
    inversion Hg; subst. exists [Data (Encoded (StaticStr []))]. apply Ob_text.
Qed.
