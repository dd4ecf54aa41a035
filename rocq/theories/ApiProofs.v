(** The API methods on elements and on the whole selection: C25-C27, C31, and arguments. *)
From Coq Require Import String ZArith.
From stdpp Require Import gmap.
From Verif Require Import Text Event Input Parse Selector Machine Template StreamBase.
From Verif Require Import SpecText SpecAttr SpecParse SpecTree SpecTransform SpecOps.
From Verif Require Import TextProofs TextProofs2 AttrProofs AttrProofs2.
From Verif Require Import Trace TraceProofs PipelineProofs FuelProofs TreeProofs ReachProofs.
From Verif Require Import ErrorProofs SelectionProofs OpProofs.
From Verif Require Api.
Local Open Scope nat_scope.

(** ** Obtainable arguments are valid *)

Lemma obtainable_args_valid p : ObtainableArgs p -> ValidArgs p.
Proof.
  intros (H1 & H2 & H3 & H4). split; [exact H1|]. split; [|split].
  - intros o x Ho Hx. eapply obtainable_well_nested; [eapply H2; eauto|]. intros z [].
  - intros o f x y Ho Hf Hx Hy. eapply obtainable_well_nested; [eapply H3; eauto|]. now intros z ->.
  - intros o x Ho Hx. destruct (H4 o x Ho Hx) as [rest Hr]. exists rest.
    eapply obtainable_well_nested; [exact Hr|]. intros z [].
Qed.
Lemma obtainable_template evs : Obtainable Nothing evs -> WellNested evs.
Proof. intros H. eapply obtainable_well_nested; eauto. intros z []. Qed.

(** ** Attributes of elements *)

Lemma attrs_of_valid x a : ProperTree x -> attrs_of x = Some a -> ValidAttrs a.
Proof.
  intros Hp. destruct x as [ev|t b kids c]; inversion Hp; subst; unfold attrs_of; simpl.
  - destruct ev; simpl in *; intros [= <-]; intuition.
  - now intros [= <-].
Qed.
Lemma reattr_of x a a' : ProperTree x -> attrs_of x = Some a -> exists y, Reattr x a y a'.
Proof.
  intros Hp. destruct x as [ev|t b kids c]; unfold attrs_of; simpl.
  - inversion Hp as [ev' Hl Hv|]; subst.
    destruct ev; simpl in *; try contradiction; intros [= <-]; eexists; constructor.
  - intros [= <-]. eexists. constructor.
Qed.
Lemma element_command o c x a : op_command o = Some c ->
  (forall i, op_name o = Some (inl i) -> ValidName (id_str i)) ->
  ProperTree x -> attrs_of x = Some a ->
  exists y, Reattr x a y (apply_attr c a) /\ Gives (tree_events x) [o] (inl (tree_events y)).
Proof.
  intros Hc Hn Hp Ha. destruct (reattr_of x a (apply_attr c a) Hp Ha) as [y Hy].
  exists y. split; auto. eapply command_result; eauto.
Qed.

Section Elements.
Variables (x : tree) (a : attributes).
Hypothesis Hp : ProperTree x.
Hypothesis Ha : attrs_of x = Some a.
Let Hv := attrs_of_valid x a Hp Ha.

Lemma element_add o name n v : Adds o name v -> Names name n ->
  exists y, Reattr x a y (a ++ [Attribute n v]) /\ Gives (tree_events x) [o] (inl (tree_events y)).
Proof.
  intros Ho [Hn Hvn].
  apply (element_command o (AAddAttribute n v)); auto; destruct Ho; simpl; rewrite Hn; auto;
    now intros i [= <-].
Qed.
Lemma element_set o name n v : Sets o name v -> Names name n ->
  exists y l, Without (id_str n) a l /\ Reattr x a y (l ++ [Attribute n v]) /\
    Gives (tree_events x) [o] (inl (tree_events y)).
Proof.
  intros Ho [Hn Hvn]. destruct (set_spec a n v Hv Hvn) as (l & Hl & E).
  destruct (element_command o (ASetAttribute n v) x a) as (y & Hr & Hg); auto;
    [destruct Ho; simpl; now rewrite Hn|destruct Ho; simpl; rewrite Hn; now intros i [= <-]|].
  rewrite E in Hr. eauto.
Qed.
Lemma element_remove name n : Names name n ->
  exists y l, Without (id_str n) a l /\ Reattr x a y l /\
    Gives (tree_events x) [Api.remove_attribute name] (inl (tree_events y)).
Proof.
  intros [Hn Hvn].
  destruct (element_command (Api.remove_attribute name) (ARemoveAttribute n) x a) as (y & Hr & Hg); auto;
    [simpl; now rewrite Hn|simpl; rewrite Hn; now intros i [= <-]|].
  exists y, (apply_attr (ARemoveAttribute n) a). split; [now apply remove_spec|auto].
Qed.
Lemma element_replace_present name n v : Names name n -> (exists b, In b a /\ NamedAs (id_str n) b) ->
  exists y l, Without (id_str n) a l /\ Reattr x a y (l ++ [Attribute n (Some (Api.into_value v))]) /\
    Gives (tree_events x) [Api.replace_attribute_value_if_exists name v] (inl (tree_events y)).
Proof.
  intros [Hn Hvn] Hb.
  destruct (element_command (Api.replace_attribute_value_if_exists name v)
              (AReplaceAttribute n (Some (Api.into_value v))) x a) as (y & Hr & Hg); auto;
    [simpl; now rewrite Hn|simpl; rewrite Hn; now intros i [= <-]|].
  destruct (replace_spec a n (Some (Api.into_value v)) Hv Hvn) as [H1 _]. rewrite (H1 Hb) in Hr.
  destruct (set_spec a n (Some (Api.into_value v)) Hv Hvn) as (l & Hl & E). rewrite E in Hr. eauto.
Qed.
Lemma element_replace_absent name n v : Names name n -> (forall b, In b a -> ~ NamedAs (id_str n) b) ->
  Gives (tree_events x) [Api.replace_attribute_value_if_exists name v] (inl (tree_events x)).
Proof.
  intros [Hn Hvn] Hb.
  destruct (element_command (Api.replace_attribute_value_if_exists name v)
              (AReplaceAttribute n (Some (Api.into_value v))) x a) as (y & Hr & Hg); auto;
    [simpl; now rewrite Hn|simpl; rewrite Hn; now intros i [= <-]|].
  destruct (replace_spec a n (Some (Api.into_value v)) Hv Hvn) as [_ H2]. rewrite (H2 Hb) in Hr.
  assert (y = x) as -> by (now inversion Hr). exact Hg.
Qed.
Lemma element_add_to_absent name n v sep : Names name n ->
  (forall b, In b a -> ~ NamedAs (id_str n) b) ->
  exists y, Reattr x a y (a ++ [Attribute n (Some (Api.into_value v))]) /\
    Gives (tree_events x) [Api.add_to_attribute name v sep] (inl (tree_events y)).
Proof.
  intros [Hn Hvn] Hb.
  rewrite <- (add_to_absent a n (Api.into_value v) (Api.into_value sep)) by auto.
  apply (element_command (Api.add_to_attribute name v sep)
           (AAddToAttribute n (Api.into_value v) (Api.into_value sep)) x a); auto;
    [simpl; now rewrite Hn|simpl; rewrite Hn; now intros i [= <-]].
Qed.
Lemma element_add_to_present name n v sep pre b post : Names name n ->
  a = pre ++ b :: post -> (forall b, In b pre -> ~ NamedAs (id_str n) b) -> NamedAs (id_str n) b ->
  exists y b' v', Reattr x a y (pre ++ b' :: post) /\
    Gives (tree_events x) [Api.add_to_attribute name v sep] (inl (tree_events y)) /\
    a_name b' = a_name b /\ a_value b' = Some v' /\
    enc_str v' = match a_value b with
                 | Some old => enc_str old ++ enc_str (Api.into_value sep) ++ enc_str (Api.into_value v)
                 | None => enc_str (Api.into_value v)
                 end.
Proof.
  intros [Hn Hvn] E Hb Hnb.
  destruct (element_command (Api.add_to_attribute name v sep)
           (AAddToAttribute n (Api.into_value v) (Api.into_value sep)) x a) as (y & Hr & Hg); auto;
    [simpl; now rewrite Hn|simpl; rewrite Hn; now intros i [= <-]|].
  assert (ValidAttrs (pre ++ b :: post)) as Hv' by (rewrite <- E; exact Hv).
  destruct (add_to_present pre b post n (Api.into_value v) (Api.into_value sep) Hv' Hvn Hb Hnb)
    as (b' & v' & E' & H1 & H2 & H3).
  exists y, b', v'. rewrite <- E', <- E. repeat split; auto.
Qed.

Lemma static_class : static_ident (lit "class") = Some Trace.class_ident.
Proof. vm_compute. reflexivity. Qed.
Lemma static_id : static_ident (lit "id") = Some Trace.id_ident.
Proof. vm_compute. reflexivity. Qed.

Lemma element_add_class name c : Names name c ->
  exists y l, Reattr x a y l /\ (forall d, HasClass l d <-> HasClass a d \/ SameName d (id_str c)) /\
    (forall l', Without (lit "class") a l' -> Without (lit "class") l l') /\
    Gives (tree_events x) [OAddClass (Api.into_identifier name)] (inl (tree_events y)).
Proof.
  intros [Hn Hvn]. rewrite Hn.
  destruct (element_command (OAddClass (inl c)) (class_cmd Trace.class_ident c) x a) as (y & Hr & Hg); auto;
    [now intros i [= <-]|].
  exists y, (apply_attr (class_cmd Trace.class_ident c) a). split; [exact Hr|split; [|split; [|exact Hg]]].
  - intros d. apply add_class_has; auto using static_class.
  - intros l'. apply add_class_others; auto using static_class.
Qed.
Lemma element_remove_class name c : Names name c ->
  exists y l, Reattr x a y l /\ (forall d, HasClass l d <-> HasClass a d /\ ~ SameName (id_str c) d) /\
    (forall l', Without (lit "class") a l' -> Without (lit "class") l l') /\
    (~ HasClass a (id_str c) -> l = a) /\
    Gives (tree_events x) [ORemoveClass (Api.into_identifier name)] (inl (tree_events y)).
Proof.
  intros [Hn Hvn]. rewrite Hn.
  destruct (element_command (ORemoveClass (inl c)) (ARemoveClass c) x a) as (y & Hr & Hg); auto;
    [now intros i [= <-]|].
  exists y, (apply_attr (ARemoveClass c) a). split; [exact Hr|split; [|split; [|split; [|exact Hg]]]].
  - intros d. now apply remove_class_has.
  - intros l'. now apply remove_class_others.
  - now apply remove_class_absent.
Qed.
Lemma element_set_id name c : Names name c ->
  exists y l, Reattr x a y l /\ (forall j, HasId l j <-> SameName j (id_str c)) /\
    (forall l', Without (lit "id") a l' -> Without (lit "id") l l') /\
    Gives (tree_events x) [OSetId (Api.into_identifier name)] (inl (tree_events y)).
Proof.
  intros [Hn Hvn]. rewrite Hn.
  destruct (element_command (OSetId (inl c)) (set_id_cmd Trace.id_ident c) x a) as (y & Hr & Hg); auto;
    [now intros i [= <-]|].
  exists y, (apply_attr (set_id_cmd Trace.id_ident c) a). split; [exact Hr|split; [|split; [|exact Hg]]].
  - intros d. apply set_id_has; auto using static_id.
  - intros l'. apply set_id_others; auto using static_id.
Qed.
Lemma element_remove_id : exists y l, Reattr x a y l /\ Without (lit "id") a l /\
  (forall j, ~ HasId l j) /\ Gives (tree_events x) [ORemoveId] (inl (tree_events y)).
Proof.
  destruct (element_command ORemoveId (ARemoveAttribute Trace.id_ident) x a) as (y & Hr & Hg); auto;
    [discriminate|].
  exists y, (apply_attr (ARemoveAttribute Trace.id_ident) a). split; [exact Hr|split; [|split; [|exact Hg]]].
  - apply (remove_id_has a Trace.id_ident []); auto using static_id.
  - intros j. apply (remove_id_has a Trace.id_ident j); auto using static_id.
Qed.
End Elements.

(** ** Repetition over items *)

Lemma imap_results {T} (items : list T) : forall (b : nat -> T -> pipeline) evs rs,
  length items = length rs ->
  (forall k item r, nth_error items k = Some item -> nth_error rs k = Some r -> Gives evs (b k item) (inl r)) ->
  Forall2 (fun p r => Gives evs p (inl r)) (imap b items) rs.
Proof.
  induction items as [|item items IH]; intros b evs rs Hl H.
  - destruct rs; [constructor|discriminate].
  - destruct rs as [|r rs]; [discriminate|]. injection Hl as Hl. rewrite imap_cons. constructor.
    + apply (H 0 item r); reflexivity.
    + apply IH; auto. intros k it r' Hi Hr. apply (H (S k) it r'); auto.
Qed.
Lemma imap_typed {T} (items : list T) : forall (b : nat -> T -> pipeline) e,
  (forall k item, exists e', typed e (b k item) e') ->
  Forall (fun p => exists e', typed e p e') (imap b items).
Proof.
  induction items as [|item items IH]; intros b e H; [constructor|]. rewrite imap_cons. constructor; auto.
  apply IH. intros k it. apply (H (S k) it).
Qed.
Lemma repeat_items {T} e evs (items : list T) b rs : Selection e evs ->
  (forall k item, exists e', typed e (b k item) e') -> ValidArgs [Api.repeat items b] ->
  length items = length rs ->
  (forall k item r, nth_error items k = Some item -> nth_error rs k = Some r -> Gives evs (b k item) (inl r)) ->
  Gives evs [Api.repeat items b] (inl (List.concat rs)).
Proof.
  intros Hs Ht Hv Hl H. eapply repeat_result; eauto using imap_typed. now apply imap_results.
Qed.
Lemma imap_split {T} (items : list T) : forall (b : nat -> T -> pipeline) k item,
  nth_error items k = Some item ->
  imap b items = imap b (firstn k items) ++ b k item :: imap (fun j => b (S k + j)) (skipn (S k) items).
Proof.
  induction items as [|it items IH]; intros b k item H; [destruct k; discriminate|].
  destruct k as [|k]; simpl in H.
  - injection H as ->. rewrite imap_cons. reflexivity.
  - rewrite imap_cons. simpl firstn. rewrite imap_cons. simpl app. f_equal.
    rewrite (IH (b ∘ S) k item H). reflexivity.
Qed.
Lemma in_imap_firstn {T} (items : list T) : forall (b : nat -> T -> pipeline) k q,
  In q (imap b (firstn k items)) -> exists j item, j < k /\ nth_error items j = Some item /\ q = b j item.
Proof.
  induction items as [|it items IH]; intros b k q H; [now rewrite firstn_nil in H|].
  destruct k as [|k]; [destruct H|]. simpl firstn in H. rewrite imap_cons in H. destruct H as [<-|H].
  - exists 0, it. repeat split. lia.
  - apply IH in H as (j & item & Hj & Hi & ->). exists (S j), item. repeat split; auto. lia.
Qed.
Lemma repeat_items_failure {T} e evs (items : list T) b k item err : Selection e evs ->
  (forall k item, exists e', typed e (b k item) e') -> ValidArgs [Api.repeat items b] ->
  nth_error items k = Some item -> Gives evs (b k item) (inr err) ->
  (forall j item, j < k -> nth_error items j = Some item -> exists r, Gives evs (b j item) (inl r)) ->
  Gives evs [Api.repeat items b] (inr err).
Proof.
  intros Hs Ht Hv Hi He Hj. unfold Api.repeat in *. rewrite (imap_split items b k item Hi) in *.
  eapply (repeat_failure e); eauto.
  - rewrite <- (imap_split items b k item Hi). now apply imap_typed.
  - intros q Hq. apply in_imap_firstn in Hq as (j & it & Hlt & Hit & ->). eauto.
Qed.

(** ** Fallbacks *)

Lemma or_else_empty e evs p e' r : Selection e evs -> typed e p e' -> ValidArgs p ->
  (Gives evs [ORepeatOrElse [] p] r <-> Gives evs p r).
Proof.
  intros Hs Ht Hv. rewrite (gives_iff evs p _ _ r (selection_good _ _ Hs) Ht Hv).
  rewrite (gives_iff evs [ORepeatOrElse [] p] e false r (selection_good _ _ Hs)).
  - reflexivity.
  - apply typed_one. econstructor; [constructor|eauto].
  - apply valid_args_wrap; simpl; auto. intros q [ [] | -> ]; auto.
Qed.
Lemma contents_or_else_empty x p e' r : ProperTree x -> IsElement x -> typed true p e' -> ValidArgs p ->
  (Gives (tree_events x) [ORepeatContentsOrElse [] p] r <-> Gives (tree_events x) p r).
Proof.
  intros Hp He Ht Hv.
  assert (Selection true (tree_events x)) as Hs by (exists x; auto).
  rewrite (gives_iff _ p _ _ r (selection_good _ _ Hs) Ht Hv).
  rewrite (gives_iff _ [ORepeatContentsOrElse [] p] true false r (selection_good _ _ Hs)).
  - reflexivity.
  - apply typed_one. econstructor; [constructor|eauto].
  - apply valid_args_wrap; simpl; auto. intros q [ [] | -> ]; auto.
Qed.
Lemma or_else_items e evs bs p e' r : bs <> [] -> Selection e evs -> typed e [ORepeatOrElse bs p] e' ->
  ValidArgs [ORepeatOrElse bs p] ->
  (Gives evs [ORepeatOrElse bs p] r <-> Gives evs [ORepeat bs] r).
Proof.
  intros Hne Hs Ht Hv. rewrite (gives_iff _ _ _ _ r (selection_good _ _ Hs) Ht Hv).
  rewrite (gives_iff evs [ORepeat bs] e false r (selection_good _ _ Hs)).
  - destruct bs; [congruence|]. reflexivity.
  - inversion Ht as [|? ? ? ? ? Ho]; subst. inversion Ho; subst. apply typed_one. now constructor.
  - apply valid_args_wrap; simpl; auto. intros q Hq. eapply valid_args_sub; eauto; [now left|]. simpl. auto.
Qed.
Lemma contents_or_else_items x bs p e' r : bs <> [] -> ProperTree x -> IsElement x ->
  typed true [ORepeatContentsOrElse bs p] e' -> ValidArgs [ORepeatContentsOrElse bs p] ->
  (Gives (tree_events x) [ORepeatContentsOrElse bs p] r <-> Gives (tree_events x) [ORepeatContents bs] r).
Proof.
  intros Hne Hp He Ht Hv.
  assert (Selection true (tree_events x)) as Hs by (exists x; auto).
  rewrite (gives_iff _ _ _ _ r (selection_good _ _ Hs) Ht Hv).
  rewrite (gives_iff _ [ORepeatContents bs] true true r (selection_good _ _ Hs)).
  - destruct bs; [congruence|]. reflexivity.
  - inversion Ht as [|? ? ? ? ? Ho]; subst. inversion Ho; subst. apply typed_one. now constructor.
  - apply valid_args_wrap; simpl; auto. intros q Hq. eapply valid_args_sub; eauto; [now left|]. simpl. auto.
Qed.

(** ** Conditional application *)

Lemma apply_if_applies b p other : Applies (Api.apply_if b p other) (if b then p else []).
Proof. destruct b; right; left; eauto. Qed.
Lemma apply_if_else_applies b p q other : Applies (Api.apply_if_else b p q other) (if b then p else q).
Proof. destruct b; right; left; eauto. Qed.
Lemma apply_with_option_applies {T} (v : option T) f q other :
  Applies (Api.apply_with_option v f q other) (match v with Some t => f t | None => q end).
Proof. destruct v; right; left; eauto. Qed.
Lemma apply_with_result_applies {T E} (v : T + E) f g other :
  Applies (Api.apply_with_result v f g other) (match v with inl t => f t | inr e => g e end).
Proof. destruct v; right; left; eauto. Qed.

(** ** Selections that change nothing *)

Lemma identity_result evs : WellNested evs -> Gives evs [] (inl evs).
Proof.
  intros H. apply (gives_of evs [] false false); [exact H|constructor| |reflexivity].
  split; [|split; [|split]]; intros o; intros; exfalso;
  match goal with Ho : Occurs [] _ |- _ => inversion Ho; simpl in *; contradiction end.
Qed.
Lemma once_unchanged direct m F p e : ElementSelector m -> Proper F -> typed true p e ->
  ValidArgs [OSelectOnce direct (inl m) p] ->
  (forall x, ProperTree x -> matches m (start x) = true -> Gives (tree_events x) p (inl (tree_events x))) ->
  Gives (events F) [OSelectOnce direct (inl m) p] (inl (events F)).
Proof.
  intros Hm HF Ht Hv Hx. destruct direct.
  - destruct (first_top_match m F) as [Hn|(F1 & x & F2 & -> & H1 & H2)].
    + eapply once_direct_no_match; eauto.
    + apply proper_app in HF as HF'. destruct HF' as [HF1 HF2]. apply proper_cons in HF2 as [Hpx HF2].
      rewrite events_app, events_cons. rewrite <- events_cons, <- events_app.
      replace (inl (events (F1 ++ x :: F2)) : list event + stream_error)
        with (around (events F1) (inl (tree_events x)) (events F2))
        by (simpl; now rewrite events_app, events_cons).
      eapply once_direct_result; eauto. eapply start_element; eauto.
  - destruct (first_match m Hm F) as [Hn|(pre & x & post & path & E & Hat & H1 & H2)].
    + eapply once_no_match; eauto using well_nested_events.
    + assert (ProperTree x) as Hpx.
      { clear -HF Hat. induction Hat as [F x Hi|F t a kids c path x Hi Hat IH]; [now apply HF|].
        apply IH. apply HF in Hi. now inversion Hi. }
      replace (inl (events F) : list event + stream_error)
        with (around pre (inl (tree_events x)) post) by (simpl; now rewrite E).
      eapply once_result; eauto using well_nested_events, start_element.
Qed.
Lemma select_no_top_match m F b : Proper F -> ElementSelector m ->
  ElementBuilder b -> ValidArgs [OSelect true (inl m) b] ->
  (forall x, In x F -> matches m (start x) = false) ->
  Gives (events F) [OSelect true (inl m) b] (inl (events F)).
Proof.
  intros HF Hm Hb Hv Hn. apply (select_result true m F [] []); auto.
  - clear -Hn. induction F as [|x F IH]; [constructor|]. rewrite events_cons.
    apply SelD_other; [apply Hn; now left|]. apply IH. intros y Hy. apply Hn. now right.
  - split; [reflexivity|]. intros [|k] x r Hx; discriminate.
Qed.

(** ** One call *)

Lemma call_k direct m F xs rs out b k p x r : ElementSelector m -> Proper F ->
  ElementBuilder b -> ElementBuilder (fun j => if Nat.eqb j k then p else b j) ->
  ValidArgs [OSelect direct (inl m) (fun j => if Nat.eqb j k then p else b j)] ->
  SelectsIn direct m F xs (firstn k rs ++ r :: skipn (S k) rs) out ->
  Builds_all b xs rs -> nth_error xs k = Some x -> Gives (tree_events x) p (inl r) ->
  Gives (events F) [OSelect direct (inl m) (fun j => if Nat.eqb j k then p else b j)] (inl out).
Proof.
  intros Hm HF Hb Hb' Hv Hs [Hl HB] Hx Hg. eapply select_result; eauto.
  pose proof (selects_in_length _ _ _ _ _ _ Hs) as Hlen. split; [exact Hlen|].
  assert (k < length rs) as Hk by (rewrite <- Hl; apply nth_error_Some; congruence).
  intros j y r' Hy Hr. destruct (Nat.eqb_spec j k) as [->|Hne].
  - rewrite nth_error_app2 in Hr by (rewrite firstn_length; lia).
    rewrite firstn_length in Hr. replace (k - Nat.min k (length rs)) with 0 in Hr by lia.
    simpl in Hr. congruence.
  - apply HB with (x := y); auto. rewrite <- Hr.
    destruct (Nat.lt_ge_cases j k) as [Hlt|Hge].
    + rewrite nth_error_app1 by (rewrite firstn_length; lia).
      rewrite <- (firstn_skipn k rs) at 1. rewrite nth_error_app1; auto. rewrite firstn_length; lia.
    + rewrite nth_error_app2 by (rewrite firstn_length; lia). rewrite firstn_length.
      replace (Nat.min k (length rs)) with k by lia.
      destruct (j - k) as [|i] eqn:Ej; [lia|]. simpl.
      rewrite <- (firstn_skipn (S k) rs) at 1. rewrite nth_error_app2 by (rewrite firstn_length; lia).
      rewrite firstn_length. f_equal. lia.
Qed.
