(** Properties C19, C20, C21, C24, C39: which elements are rewritten.
    When a selector matches a start tag is C34. *)
From Coq Require Import String ZArith List.
From stdpp Require Import gmap.
From Verif Require Import Text Event Input Parse Selector Machine Template.
From Verif Require Import SpecText SpecAttr SpecParse SpecTree SpecTransform SpecOps.
From Verif Require Import TreeProofs ErrorProofs SelectionProofs OpProofs ApiProofs ApiProofs2.
Local Open Scope nat_scope.

(** ** Examples: the forest [<a><b>1<b></b></b><br></a><b/>] and the selector [b] *)

Definition ex_id (s : string) : ident := Ident (StaticStr (lit s)).
Definition ex_text (s : string) : tree := Leaf (Data (Encoded (StaticStr (lit s)))).
Definition ex_b : tree := Elem (ex_id "b") [] [ex_text "1"; Elem (ex_id "b") [] [] (ex_id "B")] (ex_id "b").
Definition ex_b' : tree := Leaf (SelfClosedTag (ex_id "b") []).
Definition ex_br : tree := Leaf (VoidTag (ex_id "br") []).
Definition ex_forest : list tree := [Elem (ex_id "a") [] [ex_b; ex_br] (ex_id "a"); ex_b'].
Definition ex_sel : selector := SelTag (ex_id "b").
Definition ex_number (z : Z) : event := Data (Encoded (Actual (decimal_z z))).
Definition ex_builder (k : nat) : pipeline := [OReplace (CInt (Z.of_nat k))].

Lemma ex_valid s : (exists t, validate (lit s) = inl t) -> ValidTag (ex_id s).
Proof. apply TextProofs.validate_iff. Qed.
Lemma ex_no_attrs : ValidAttrs [].
Proof. intros a []. Qed.
Lemma ex_b_proper : ProperTree ex_b.
Proof.
  constructor; [apply ex_valid; vm_compute; eauto|apply ex_no_attrs|apply TextProofs.eq_ignore_spec; vm_compute; reflexivity|].
  intros x [<-|[<-|[]]]; [now constructor|].
  constructor; [apply ex_valid; vm_compute; eauto|apply ex_no_attrs|apply TextProofs.eq_ignore_spec; vm_compute; reflexivity|intros x []].
Qed.
Lemma ex_b'_proper : ProperTree ex_b'.
Proof. constructor; [exact I|]. split; [apply ex_valid; vm_compute; eauto|apply ex_no_attrs]. Qed.
Lemma ex_forest_proper : Proper ex_forest.
Proof.
  intros x [<-|[<-|[]]]; [|apply ex_b'_proper].
  constructor; [apply ex_valid; vm_compute; eauto|apply ex_no_attrs|apply TextProofs.eq_ignore_spec; vm_compute; reflexivity|].
  intros x [<-|[<-|[]]]; [apply ex_b_proper|].
  constructor; [exact I|]. split; [apply ex_valid; vm_compute; eauto|apply ex_no_attrs].
Qed.
Lemma ex_sel_element : ElementSelector ex_sel.
Proof. apply library_selector. discriminate. Qed.
Lemma ex_builder_typed : ElementBuilder ex_builder.
Proof. intros k. eexists. apply typed_one. constructor. Qed.
Lemma ex_builder_args k : ObtainableArgs (ex_builder k).
Proof. eapply obtainable_args_text; [reflexivity|exact I]. Qed.
Lemma ex_select_args direct sel : ValidArgs [OSelect direct sel ex_builder].
Proof.
  apply obtainable_args_valid, obtainable_args_wrap; try reflexivity; [discriminate|].
  intros q [k ->]. apply ex_builder_args.
Qed.
Lemma ex_once_args direct sel : ValidArgs [OSelectOnce direct sel (ex_builder 7)].
Proof.
  apply obtainable_args_valid, obtainable_args_wrap; try reflexivity; [discriminate|].
  intros q ->. apply ex_builder_args.
Qed.
Lemma ex_build x k : ProperTree x -> Gives (tree_events x) (ex_builder k) (inl [ex_number (Z.of_nat k)]).
Proof.
  intros Hx. apply replace_result; [now apply well_nested_tree|constructor|].
  intros [H|[]]. discriminate.
Qed.

(** ** C19 [select] rewrites exactly the outermost matching elements *)

(** Replacing the selected elements by what the builder makes of each of them, on its own,
    is the result. *)
Theorem C19_select : forall direct m F xs rs out b, ElementSelector m -> Proper F ->
  ElementBuilder b -> ValidArgs [OSelect direct (inl m) b] ->
  SelectsIn direct m F xs rs out -> Builds_all b xs rs ->
  Gives (events F) [OSelect direct (inl m) b] (inl out).
Proof. exact select_result. Qed.
Print Assumptions C19_select.

(** The selected elements are those that match and are in no matching element. *)
Theorem C19_outermost : forall m F xs rs out, Selects m F xs rs out -> forall x,
  In x xs <-> matches m (start x) = true /\
              exists path, At F path x /\ forall y, In y path -> matches m (start y) = false.
Proof. exact selected_iff. Qed.
Print Assumptions C19_outermost.

(** Every forest has such a selection, and only one; there is a result for every choice of
    replacements. *)
Theorem C19_selection_exists : forall m F,
  exists xs, forall rs, length rs = length xs -> exists out, Selects m F xs rs out.
Proof. exact selection_exists. Qed.
Print Assumptions C19_selection_exists.

Theorem C19_selection_unique : forall m F xs rs out, Selects m F xs rs out ->
  forall xs' rs' out', Selects m F xs' rs' out' -> xs' = xs.
Proof. exact selection_unique. Qed.
Print Assumptions C19_selection_unique.

(** The first failure of the builder is the result. *)
Theorem C19_failure : forall direct m F xs rs out b k err, ElementSelector m -> Proper F ->
  ElementBuilder b -> ValidArgs [OSelect direct (inl m) b] ->
  SelectsIn direct m F xs rs out -> First_failure b xs k err ->
  Gives (events F) [OSelect direct (inl m) b] (inr err).
Proof. exact select_failure. Qed.
Print Assumptions C19_failure.

Lemma ex_selects r r' : Selects ex_sel ex_forest [ex_b; ex_b'] [r; r']
  (OpeningTag (ex_id "a") [] :: r ++ [VoidTag (ex_id "br") []] ++ ClosingTag (ex_id "a") :: r').
Proof.
  replace (OpeningTag (ex_id "a") [] :: r ++ [VoidTag (ex_id "br") []] ++ ClosingTag (ex_id "a") :: r')
    with (OpeningTag (ex_id "a") [] :: (r ++ [VoidTag (ex_id "br") []]) ++ ClosingTag (ex_id "a") :: r' ++ [])
    by now rewrite app_nil_r, <- app_assoc.
  apply (Sel_inside ex_sel (ex_id "a") [] [ex_b; ex_br] (ex_id "a") [ex_b'] [ex_b] [r] _ [ex_b'] [r'] _).
  - vm_compute. reflexivity.
  - apply Sel_match; [vm_compute; reflexivity|]. apply Sel_leaf; [vm_compute; reflexivity|]. constructor.
  - apply Sel_match; [vm_compute; reflexivity|]. constructor.
Qed.
Example C19_example : Gives (events ex_forest) [OSelect false (inl ex_sel) ex_builder]
  (inl [OpeningTag (ex_id "a") []; ex_number 0; VoidTag (ex_id "br") []; ClosingTag (ex_id "a"); ex_number 1]).
Proof.
  apply (C19_select false ex_sel ex_forest [ex_b; ex_b'] [[ex_number 0]; [ex_number 1]]).
  - apply ex_sel_element.
  - apply ex_forest_proper.
  - apply ex_builder_typed.
  - apply ex_select_args.
  - apply (ex_selects [ex_number 0] [ex_number 1]).
  - split; [reflexivity|]. intros [|[|[|k]]] x r Hx Hr; try discriminate;
      injection Hx as <-; injection Hr as <-; apply ex_build; [apply ex_b_proper|apply ex_b'_proper].
Qed.

(** ** C20 [select_once] rewrites exactly the first match in document order *)

(** [x] is the first match: no event before it matches.  Events before and after it stay. *)
Theorem C20_select_once : forall m evs pre x post p e r, WellNested evs -> typed true p e ->
  ValidArgs [OSelectOnce false (inl m) p] ->
  evs = pre ++ tree_events x ++ post -> ProperTree x -> IsElement x ->
  (forall ev, In ev pre -> matches m ev = false) -> matches m (start x) = true ->
  Gives (tree_events x) p r ->
  Gives evs [OSelectOnce false (inl m) p] (around pre r post).
Proof. exact once_result. Qed.
Print Assumptions C20_select_once.

(** There is a first match, or no match at all. *)
Theorem C20_first_match : forall m, ElementSelector m -> forall F,
  (forall ev, In ev (events F) -> matches m ev = false) \/
  exists pre x post path, events F = pre ++ tree_events x ++ post /\ At F path x /\
    (forall ev, In ev pre -> matches m ev = false) /\ matches m (start x) = true.
Proof. exact first_match. Qed.
Print Assumptions C20_first_match.

Theorem C20_no_match : forall direct m evs p e, WellNested evs -> typed true p e ->
  ValidArgs [OSelectOnce direct (inl m) p] ->
  (forall ev, In ev evs -> matches m ev = false) ->
  Gives evs [OSelectOnce direct (inl m) p] (inl evs).
Proof. exact once_no_match. Qed.
Print Assumptions C20_no_match.

Example C20_example : Gives (events ex_forest) [OSelectOnce false (inl ex_sel) (ex_builder 7)]
  (inl [OpeningTag (ex_id "a") []; ex_number 7; VoidTag (ex_id "br") []; ClosingTag (ex_id "a");
        SelfClosedTag (ex_id "b") []]).
Proof.
  apply (C20_select_once ex_sel (events ex_forest) [OpeningTag (ex_id "a") []] ex_b
           [VoidTag (ex_id "br") []; ClosingTag (ex_id "a"); SelfClosedTag (ex_id "b") []]
           (ex_builder 7) false (inl [ex_number 7])).
  - apply well_nested_events, ex_forest_proper.
  - apply typed_one. constructor.
  - apply ex_once_args.
  - reflexivity.
  - apply ex_b_proper.
  - exact I.
  - intros ev [<-|[]]. vm_compute. reflexivity.
  - vm_compute. reflexivity.
  - apply (ex_build ex_b 7), ex_b_proper.
Qed.

(** ** C21 Direct selection sees only the top level *)

(** [select_direct] is [C19_select] with [direct := true]; its selection are the matching
    trees of the top level. *)
Theorem C21_select_direct : forall m F xs rs out b, ElementSelector m -> Proper F ->
  ElementBuilder b -> ValidArgs [OSelect true (inl m) b] ->
  SelectsDirect m F xs rs out -> Builds_all b xs rs ->
  Gives (events F) [OSelect true (inl m) b] (inl out).
Proof. exact (select_result true). Qed.
Print Assumptions C21_select_direct.

Theorem C21_top_level : forall m F xs rs out, SelectsDirect m F xs rs out ->
  xs = filter (fun x => matches m (start x) = true) F.
Proof. exact selected_direct_iff. Qed.
Print Assumptions C21_top_level.

Theorem C21_selection_exists : forall m F,
  exists xs, forall rs, length rs = length xs -> exists out, SelectsDirect m F xs rs out.
Proof. exact selection_direct_exists. Qed.
Print Assumptions C21_selection_exists.

(** [select_direct_once] rewrites the first matching tree of the top level. *)
Theorem C21_select_direct_once : forall m F1 x F2 p e r,
  Proper (F1 ++ x :: F2) -> IsElement x -> typed true p e ->
  ValidArgs [OSelectOnce true (inl m) p] ->
  (forall y, In y F1 -> matches m (start y) = false) -> matches m (start x) = true ->
  Gives (tree_events x) p r ->
  Gives (events (F1 ++ x :: F2)) [OSelectOnce true (inl m) p] (around (events F1) r (events F2)).
Proof. exact once_direct_result. Qed.
Print Assumptions C21_select_direct_once.

Theorem C21_no_match : forall m F p e, Proper F -> typed true p e ->
  ValidArgs [OSelectOnce true (inl m) p] ->
  (forall y, In y F -> matches m (start y) = false) ->
  Gives (events F) [OSelectOnce true (inl m) p] (inl (events F)).
Proof. exact once_direct_no_match. Qed.
Print Assumptions C21_no_match.

Lemma ex_selects_direct r : SelectsDirect ex_sel ex_forest [ex_b'] [r]
  (tree_events (Elem (ex_id "a") [] [ex_b; ex_br] (ex_id "a")) ++ r ++ []).
Proof.
  apply SelD_other; [vm_compute; reflexivity|]. apply SelD_match; [vm_compute; reflexivity|]. constructor.
Qed.
Example C21_example : Gives (events ex_forest) [OSelect true (inl ex_sel) ex_builder]
  (inl (tree_events (Elem (ex_id "a") [] [ex_b; ex_br] (ex_id "a")) ++ [ex_number 0])).
Proof.
  apply (C21_select_direct ex_sel ex_forest [ex_b'] [[ex_number 0]]).
  - apply ex_sel_element.
  - apply ex_forest_proper.
  - apply ex_builder_typed.
  - apply ex_select_args.
  - apply (ex_selects_direct [ex_number 0]).
  - split; [reflexivity|]. intros [|[|k]] x r Hx Hr; try discriminate.
    injection Hx as <-; injection Hr as <-. apply ex_build, ex_b'_proper.
Qed.
Example C21_example_once : Gives (events ex_forest) [OSelectOnce true (inl ex_sel) (ex_builder 7)]
  (inl (tree_events (Elem (ex_id "a") [] [ex_b; ex_br] (ex_id "a")) ++ [ex_number 7])).
Proof.
  apply (C21_select_direct_once ex_sel [Elem (ex_id "a") [] [ex_b; ex_br] (ex_id "a")] ex_b' []
           (ex_builder 7) false (inl [ex_number 7])).
  - apply ex_forest_proper.
  - exact I.
  - apply typed_one. constructor.
  - apply ex_once_args.
  - intros y [<-|[]]. vm_compute. reflexivity.
  - vm_compute. reflexivity.
  - apply (ex_build ex_b' 7), ex_b'_proper.
Qed.

(** ** C24 subselection works on descendants only *)

(** The children of [x] are [kids]; the tags around them are [op] and [cl]. *)
Theorem C24_subselect_contents : forall x op kids cl, ProperTree x -> Inside x op kids cl ->
  forall p e r, typed false p e -> ValidArgs p ->
  Gives (events kids) p r -> Gives (tree_events x) [OSubselectContents p] (around [op] r [cl]).
Proof. exact contents_apply. Qed.
Print Assumptions C24_subselect_contents.

Theorem C24_subselect : forall x op kids cl, ProperTree x -> Inside x op kids cl ->
  forall direct m b r, ElementBuilder b -> ValidArgs [OSubselect direct (inl m) b] ->
  Gives (events kids) [OSelect direct (inl m) b] r ->
  Gives (tree_events x) [OSubselect direct (inl m) b] (around [op] r [cl]).
Proof. exact contents_select. Qed.
Print Assumptions C24_subselect.

Theorem C24_subselect_once : forall x op kids cl, ProperTree x -> Inside x op kids cl ->
  forall direct m p e r, typed true p e -> ValidArgs [OSubselectOnce direct (inl m) p] ->
  Gives (events kids) [OSelectOnce direct (inl m) p] r ->
  Gives (tree_events x) [OSubselectOnce direct (inl m) p] (around [op] r [cl]).
Proof. exact contents_select_once. Qed.
Print Assumptions C24_subselect_once.

(** A void element has no inside and stays as it is. *)
Theorem C24_void : forall o o' t a e, ContentsOf o o' -> typed true [o] e -> ValidArgs [o] ->
  ProperTree (Leaf (VoidTag t a)) -> Gives [VoidTag t a] [o] (inl [VoidTag t a]).
Proof. exact contents_void. Qed.
Print Assumptions C24_void.

(** The outer [b] matches too but is left alone. *)
Example C24_example : Gives (tree_events ex_b) [OSubselect false (inl ex_sel) ex_builder]
  (inl [OpeningTag (ex_id "b") []; Data (Encoded (StaticStr (lit "1"))); ex_number 0; ClosingTag (ex_id "b")]).
Proof.
  apply (C24_subselect ex_b (OpeningTag (ex_id "b") []) [ex_text "1"; Elem (ex_id "b") [] [] (ex_id "B")]
           (ClosingTag (ex_id "b")) ex_b_proper (In_elem _ _ _ _) false ex_sel ex_builder
           (inl [Data (Encoded (StaticStr (lit "1"))); ex_number 0])).
  - apply ex_builder_typed.
  - apply obtainable_args_valid, obtainable_args_wrap; try reflexivity; [discriminate|].
    intros q [k ->]. apply ex_builder_args.
  - apply (C19_select false ex_sel _ [Elem (ex_id "b") [] [] (ex_id "B")] [[ex_number 0]]).
    + apply ex_sel_element.
    + pose proof ex_b_proper as H. now inversion H.
    + apply ex_builder_typed.
    + apply ex_select_args.
    + apply Sel_leaf; [vm_compute; reflexivity|].
      apply (Sel_match ex_sel _ [] [] [ex_number 0] [] []); [vm_compute; reflexivity|constructor].
    + split; [reflexivity|]. intros [|[|k]] x r Hx Hr; try discriminate.
      injection Hx as <-; injection Hr as <-. apply ex_build.
      pose proof ex_b_proper as H. inversion H as [|? ? ? ? ? ? ? Hk]; subst. apply Hk. right. now left.
Qed.

(** ** C39 Builders run once per selected element, in document order *)

(** [b k] is what the [k]-th invocation of a stateful builder returns.  [C19_select] says
    that it determines the rewriting of the [k]-th selected element: *)
Theorem C39_kth_call : forall direct m F xs rs out b k p x r, ElementSelector m -> Proper F ->
  ElementBuilder b -> ElementBuilder (fun j => if Nat.eqb j k then p else b j) ->
  ValidArgs [OSelect direct (inl m) (fun j => if Nat.eqb j k then p else b j)] ->
  SelectsIn direct m F xs (firstn k rs ++ r :: skipn (S k) rs) out ->
  Builds_all b xs rs -> nth_error xs k = Some x -> Gives (tree_events x) p (inl r) ->
  Gives (events F) [OSelect direct (inl m) (fun j => if Nat.eqb j k then p else b j)] (inl out).
Proof. exact call_k. Qed.
Print Assumptions C39_kth_call.

(** There are no more invocations than selected elements that matter. *)
Theorem C39_no_more_calls : forall direct m F xs b b', ElementSelector m -> Proper F ->
  ElementBuilder b -> ElementBuilder b' ->
  ValidArgs [OSelect direct (inl m) b] -> ValidArgs [OSelect direct (inl m) b'] ->
  (exists rs out, SelectsIn direct m F xs rs out) ->
  (forall k, k < length xs -> b k = b' k) ->
  forall r, Gives (events F) [OSelect direct (inl m) b] r -> Gives (events F) [OSelect direct (inl m) b'] r.
Proof. exact select_calls. Qed.
Print Assumptions C39_no_more_calls.

Example C39_example : Gives (events ex_forest)
  [OSelect false (inl ex_sel) (fun j => if Nat.eqb j 1 then [] else ex_builder j)]
  (inl [OpeningTag (ex_id "a") []; ex_number 0; VoidTag (ex_id "br") []; ClosingTag (ex_id "a");
        SelfClosedTag (ex_id "b") []]).
Proof.
  apply (C39_kth_call false ex_sel ex_forest [ex_b; ex_b'] [[ex_number 0]; [ex_number 1]] _ ex_builder 1 []
           ex_b' [SelfClosedTag (ex_id "b") []]).
  - apply ex_sel_element.
  - apply ex_forest_proper.
  - apply ex_builder_typed.
  - intros [|[|k]]; simpl; eexists; try (apply typed_one; constructor). constructor.
  - apply obtainable_args_valid, obtainable_args_wrap; try reflexivity; [discriminate|].
    intros q [k ->]. destruct (Nat.eqb k 1); [apply obtainable_args_nil|apply ex_builder_args].
  - apply (ex_selects [ex_number 0] [SelfClosedTag (ex_id "b") []]).
  - split; [reflexivity|]. intros [|[|[|k]]] x r Hx Hr; try discriminate;
      injection Hx as <-; injection Hr as <-; apply ex_build; [apply ex_b_proper|apply ex_b'_proper].
  - reflexivity.
  - apply (identity_result (tree_events ex_b')), well_nested_tree, ex_b'_proper.
Qed.
