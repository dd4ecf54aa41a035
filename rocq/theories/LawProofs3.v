(** Equations between attribute calls and between selections. *)
From Coq Require Import String ZArith List Bool.
From stdpp Require Import gmap.
From Verif Require Import Text Event Input Parse Selector Machine Template.
From Verif Require Import SpecText SpecAttr SpecParse SpecTree SpecTransform SpecOps SpecLaws.
From Verif Require Import TextProofs AttrProofs AttrProofs2 Trace TraceProofs PipelineProofs TreeProofs.
From Verif Require Import ErrorProofs SelectionProofs OpProofs LawProofs LawProofs2.
Local Open Scope nat_scope.

(** ** What attribute commands are about *)

Definition cmd_about (c : attr_cmd) : str :=
  match c with ARemoveClass _ => lit "class" | c => id_str (cmd_name c) end.
Lemma about_command o n : About o n -> exists c, op_command o = Some c /\ cmd_about c = n.
Proof. intros []; eexists; split; reflexivity. Qed.
Lemma about_valid o n c : About o n -> op_command o = Some c ->
  (forall i, op_name o = Some (inl i) -> ValidName (id_str i)) ->
  ValidName (id_str (cmd_name c)) /\ ValidName n.
Proof.
  intros Ha Hc Hn.
  destruct Ha; simpl in *; injection Hc as <-; simpl; split;
    first [apply Hn; reflexivity|apply class_valid|apply id_valid].
Qed.

(** The other attributes stay as they are. *)
Lemma replace_cases l n v : ValidAttrs l -> ValidName (id_str n) ->
  (replace_attribute l n v = set_attribute l n v /\ exists a, In a l /\ NamedAs (id_str n) a) \/
  (replace_attribute l n v = l /\ forall a, In a l -> ~ NamedAs (id_str n) a).
Proof.
  intros Hl Hn. destruct (replace_spec l n v Hl Hn) as [H1 H2].
  destruct (first_named l (id_str n) Hl Hn) as [H|(pre & a & post & E & Ha & _)].
  - right. auto.
  - left. assert (exists a, In a l /\ NamedAs (id_str n) a) as Hex.
    { exists a. split; auto. subst l. apply in_or_app. right. now left. }
    auto.
Qed.
Lemma command_others c l l' : ValidAttrs l -> ValidName (id_str (cmd_name c)) ->
  Without (cmd_about c) l l' -> Without (cmd_about c) (apply_attr c l) l'.
Proof.
  intros Hl Hn W.
  assert (forall n v, ValidName (id_str n) -> Without (id_str n) [Attribute n v] []) as Hone.
  { intros n v H. apply W_drop; [|constructor]. apply same_name_refl. }
  destruct c; simpl in *.
  - now apply remove_class_others.
  - rewrite (without_functional _ _ _ _ W (except_without l name Hl Hn)).
    eapply without_idem, except_without; auto.
  - rewrite <- (app_nil_r l'). apply without_app; auto.
  - destruct (replace_cases l name v Hl Hn) as [[E _]|[E _]]; rewrite E; auto.
    rewrite (without_functional _ _ _ _ W (except_without l name Hl Hn)).
    unfold set_attribute. rewrite <- (app_nil_r (attributes_except l name)) at 2.
    apply without_app; auto. eapply without_idem, except_without; auto.
  - now apply (add_to_others l name v sep).
  - rewrite (without_functional _ _ _ _ W (except_without l name Hl Hn)).
    unfold set_attribute. rewrite <- (app_nil_r (attributes_except l name)) at 2.
    apply without_app; auto. eapply without_idem, except_without; auto.
Qed.

Lemma except_after c l i : ValidAttrs l -> ValidName (id_str (cmd_name c)) -> ValidName (id_str i) ->
  SameName (cmd_about c) (id_str i) ->
  attributes_except (apply_attr c l) i = attributes_except l i.
Proof.
  intros Hl Hn Hi Hs. eapply without_functional.
  - apply except_without; auto. now apply apply_attr_valid.
  - eapply without_cong; [exact Hs|]. apply command_others; auto.
    eapply without_cong; [apply same_name_sym, Hs|]. now apply except_without.
Qed.

(** ** Commands on another name *)

Lemma not_same_named n m a : ~ SameName n m -> NamedAs n a -> ~ NamedAs m a.
Proof.
  intros H Hn Hm. apply H. eapply same_name_trans; [exact Hn|]. apply same_name_sym. exact Hm.
Qed.
Lemma without_commute n m l l1 l2 l3 : Without n l l1 -> Without m l l2 -> Without m l1 l3 -> Without n l2 l3.
Proof.
  intros H. revert l2 l3. induction H as [|a l l1 Ha H IH|a l l1 Ha H IH]; intros l2 l3 H2 H3.
  - inversion H2; inversion H3; subst. constructor.
  - inversion H2; subst; [eauto|]. apply W_drop; eauto.
  - inversion H2; subst; inversion H3; subst; try contradiction; eauto. apply W_keep; eauto.
Qed.
Lemma add_to_without m l l' n v sep : ValidAttrs l -> ValidName (id_str n) -> ValidName m ->
  ~ SameName (id_str n) m -> Without m l l' ->
  Without m (add_to_attribute l n v sep) (add_to_attribute l' n v sep).
Proof.
  intros Hl Hn Hm Hd W. induction W as [|a l l' Ha W IH|a l l' Ha W IH]; simpl.
  - apply W_keep; [|constructor]. intros H. apply Hd. apply same_name_sym. exact H.
  - apply valid_attrs_cons in Hl as [Hla Hl].
    assert (ident_eqb (a_name a) n = false) as ->.
    { apply named_eqb_false; auto. intros H. exact (not_same_named _ _ _ Hd H Ha). }
    apply W_drop; auto.
  - apply valid_attrs_cons in Hl as [Hla Hl].
    destruct (ident_eqb (a_name a) n); apply W_keep; auto.
Qed.
Lemma remove_class_is_loop l c : remove_class l c = remove_class_loop l (id_str c).
Proof.
  unfold remove_class. destruct (has_class l (id_str c)) eqn:E; auto.
  induction l as [|a l IH]; auto. simpl in E |- *. apply orb_false_iff in E as [E1 E2].
  unfold attribute_remove_class, make_without. rewrite E1. simpl. f_equal. auto.
Qed.
Lemma remove_class_without m l l' c : ValidAttrs l -> ValidName (id_str c) ->
  ~ SameName (lit "class") m -> Without m l l' ->
  Without m (remove_class l c) (remove_class l' c).
Proof.
  intros Hl Hc Hd W. rewrite !remove_class_is_loop.
  induction W as [|a l l' Ha W IH|a l l' Ha W IH]; simpl; [constructor| |];
    apply valid_attrs_cons in Hl as [Hla Hl];
    pose proof (attribute_remove_class_spec a (id_str c) Hla Hc) as HS;
    destruct (attribute_remove_class a (id_str c)) as [a'|].
  - destruct HS as (_ & HS & _). rewrite HS.
    + apply W_drop; auto.
    + intros H. exact (not_same_named _ _ _ Hd H Ha).
  - destruct HS as (HS & _). exfalso. exact (not_same_named _ _ _ Hd HS Ha).
  - destruct HS as (HS & _). apply W_keep; auto. unfold NamedAs. rewrite HS. exact Ha.
  - auto.
Qed.
Lemma set_without m l l' n v : ValidAttrs l -> ValidName (id_str n) ->
  ~ SameName (id_str n) m -> Without m l l' ->
  Without m (set_attribute l n v) (set_attribute l' n v).
Proof.
  intros Hl Hn Hd W. unfold set_attribute. apply without_app.
  - eapply without_commute; [exact W|apply except_without; auto|apply except_without; auto].
    eapply valid_without; eauto.
  - apply W_keep; [|constructor]. intros H. apply Hd. apply same_name_sym. exact H.
Qed.
Lemma command_without c m l l' : ValidAttrs l -> ValidName (id_str (cmd_name c)) -> ValidName m ->
  ~ SameName (cmd_about c) m -> Without m l l' -> Without m (apply_attr c l) (apply_attr c l').
Proof.
  intros Hl Hn Hm Hd W. pose proof (valid_without _ _ _ W Hl) as Hl'. destruct c; simpl in *.
  - now apply remove_class_without.
  - eapply without_commute; [exact W|apply except_without; auto|apply except_without; auto].
  - apply without_app; auto. apply W_keep; [|constructor]. intros H. apply Hd. apply same_name_sym. exact H.
  - destruct (replace_cases l name v Hl Hn) as [[E (a & Ha & Hna)]|[E Ha]], (replace_cases l' name v Hl' Hn)
      as [[E' (b & Hb & Hnb)]|[E' Hb]]; rewrite E, E'.
    + now apply set_without.
    + exfalso. apply (Hb a); auto. apply (without_in _ _ _ W). split; auto.
      exact (not_same_named _ _ _ Hd Hna).
    + exfalso. apply (Ha b); auto. now apply (without_in _ _ _ W) in Hb.
    + exact W.
  - now apply add_to_without.
  - now apply set_without.
Qed.

(** ** The calls *)

Definition named_ok (o : op) : Prop := forall i, op_name o = Some (inl i) -> ValidName (id_str i).
Lemma attr_pair_equal o1 o2 c1 c2 q cq : op_command o1 = Some c1 -> op_command o2 = Some c2 ->
  named_ok o1 -> named_ok o2 -> named_ok q -> op_command q = Some cq ->
  (forall a, ValidAttrs a -> apply_attr c2 (apply_attr c1 a) = apply_attr cq a) ->
  Equal true [o1; o2] [q].
Proof.
  intros H1 H2 N1 N2 Nq Hq H. eapply (equal_of _ _ _ true true).
  - apply (typed_app true [o1] true [o2]); eapply command_typed; eauto.
  - eapply command_typed; eauto.
  - apply (valid_args_app [o1]); eapply command_valid; eauto.
  - eapply command_valid; eauto.
  - intros evs Hg. simpl. rewrite (command_trace o1 c1), (command_trace o2 c2), (command_trace q cq) by auto.
    unfold Good in Hg. simpl in Hg.
    destruct evs as [|[] rest]; try contradiction; simpl.
    + destruct Hg as [Hv _]. apply valid_start_spec in Hv as [_ Hv]. now rewrite H.
    + destruct rest; [|contradiction]. apply valid_start_spec in Hg as [_ Hv]. now rewrite H.
    + destruct rest; [|contradiction]. apply valid_start_spec in Hg as [_ Hv]. now rewrite H.
Qed.
Lemma attr_pairs_equal o1 o2 c1 c2 : op_command o1 = Some c1 -> op_command o2 = Some c2 ->
  named_ok o1 -> named_ok o2 ->
  (forall a, ValidAttrs a -> apply_attr c2 (apply_attr c1 a) = apply_attr c1 (apply_attr c2 a)) ->
  Equal true [o1; o2] [o2; o1].
Proof.
  intros H1 H2 N1 N2 H. eapply (equal_of _ _ _ true true).
  - apply (typed_app true [o1] true [o2]); eapply command_typed; eauto.
  - apply (typed_app true [o2] true [o1]); eapply command_typed; eauto.
  - apply (valid_args_app [o1]); eapply command_valid; eauto.
  - apply (valid_args_app [o2]); eapply command_valid; eauto.
  - intros evs Hg. simpl. rewrite !(command_trace o1 c1), !(command_trace o2 c2) by auto.
    unfold Good in Hg. simpl in Hg.
    destruct evs as [|[] rest]; try contradiction; simpl.
    + destruct Hg as [Hv _]. apply valid_start_spec in Hv as [_ Hv]. now rewrite H.
    + destruct rest; [|contradiction]. apply valid_start_spec in Hg as [_ Hv]. now rewrite H.
    + destruct rest; [|contradiction]. apply valid_start_spec in Hg as [_ Hv]. now rewrite H.
Qed.

Lemma removed_later o n i : About o n -> named_ok o -> ValidName (id_str i) -> SameName n (id_str i) ->
  Equal true [o; ORemoveAttribute (inl i)] [ORemoveAttribute (inl i)].
Proof.
  intros Ha Hn Hi Hs. destruct (about_command o n Ha) as (c & Hc & Ec).
  destruct (about_valid o n c Ha Hc Hn) as [V1 V2].
  eapply (attr_pair_equal o _ c (ARemoveAttribute i) _ (ARemoveAttribute i)); try reflexivity; auto.
  - intros j [= <-]. exact Hi.
  - intros j [= <-]. exact Hi.
  - intros a Va. simpl. apply except_after; auto. now rewrite Ec.
Qed.
Lemma set_later o n i v : About o n -> named_ok o -> ValidName (id_str i) -> SameName n (id_str i) ->
  Equal true [o; OSetAttribute (inl i) v] [OSetAttribute (inl i) v].
Proof.
  intros Ha Hn Hi Hs. destruct (about_command o n Ha) as (c & Hc & Ec).
  destruct (about_valid o n c Ha Hc Hn) as [V1 V2].
  eapply (attr_pair_equal o _ c (ASetAttribute i v) _ (ASetAttribute i v)); try reflexivity; auto.
  - intros j [= <-]. exact Hi.
  - intros j [= <-]. exact Hi.
  - intros a Va. simpl. unfold set_attribute. f_equal. apply except_after; auto. now rewrite Ec.
Qed.
Lemma remove_add_set i v : ValidName (id_str i) ->
  Equal true [ORemoveAttribute (inl i); OAddAttribute (inl i) v] [OSetAttribute (inl i) v].
Proof.
  intros Hi. eapply (attr_pair_equal _ _ (ARemoveAttribute i) (AAddAttribute i v) _ (ASetAttribute i v));
    try reflexivity; intros j [= <-]; exact Hi.
Qed.
Lemma remove_commutes o n i : About o n -> named_ok o -> ValidName (id_str i) -> ~ SameName n (id_str i) ->
  Equal true [o; ORemoveAttribute (inl i)] [ORemoveAttribute (inl i); o].
Proof.
  intros Ha Hn Hi Hs. destruct (about_command o n Ha) as (c & Hc & Ec).
  destruct (about_valid o n c Ha Hc Hn) as [V1 V2].
  eapply (attr_pairs_equal o _ c (ARemoveAttribute i)); try reflexivity; auto.
  - intros j [= <-]. exact Hi.
  - intros a Va. simpl. eapply without_functional.
    + apply except_without; auto. now apply apply_attr_valid.
    + apply command_without; auto; [now rewrite Ec|]. now apply except_without.
Qed.

(** ** Selections *)

Lemma equal_weaken e p q : Equal false p q -> Equal e p q.
Proof.
  intros H evs r Hs. apply H. destruct e; [|exact Hs].
  destruct Hs as (x & Hx & _ & ->). now apply well_nested_tree.
Qed.
Lemma empty_valid : ValidArgs [].
Proof.
  assert (forall o, ~ Occurs [] o) as H by (intros o Ho; inversion Ho; contradiction).
  split; [|split; [|split]].
  - intros o i Ho. now apply H in Ho.
  - intros o x Ho. now apply H in Ho.
  - intros o f x y Ho. now apply H in Ho.
  - intros o x Ho. now apply H in Ho.
Qed.
Lemma gives_nothing evs : WellNested evs -> Gives evs [] (inl evs).
Proof.
  intros Hw. apply (gives_iff evs [] false false); [now apply good_template|constructor|apply empty_valid|reflexivity].
Qed.
Lemma equal_result p q : (forall evs, WellNested evs -> exists r, Gives evs p r /\ Gives evs q r) -> Equal false p q.
Proof.
  intros H evs r Hs. destruct (H evs Hs) as (r' & H1 & H2).
  split; intros Hr; [pose proof (gives_det _ _ _ _ H1 Hr)|pose proof (gives_det _ _ _ _ H2 Hr)]; now subst.
Qed.

Lemma selects_same m F xs rs out : Selects m F xs rs out -> Selects m F xs (map tree_events xs) (events F).
Proof.
  induction 1.
  - constructor.
  - rewrite events_cons. now apply Sel_match.
  - rewrite events_cons. now apply Sel_leaf.
  - rewrite events_cons, map_app, tree_events_elem. simpl. rewrite <- app_assoc.
    now apply Sel_inside.
Qed.
Lemma selects_direct_same m F xs rs out : SelectsDirect m F xs rs out ->
  SelectsDirect m F xs (map tree_events xs) (events F).
Proof.
  induction 1.
  - constructor.
  - rewrite events_cons. now apply SelD_match.
  - rewrite events_cons. now apply SelD_other.
Qed.
Lemma selects_in_same d m F : exists xs, SelectsIn d m F xs (map tree_events xs) (events F).
Proof.
  destruct (selection_in_exists d m F) as [xs H].
  destruct (H (map tree_events xs)) as [out Ho]; [apply map_length|]. exists xs.
  destruct d; simpl in *; [eapply selects_direct_same|eapply selects_same]; eauto.
Qed.
Lemma select_nothing e d m : ElementSelector m -> Equal e [OSelect d (inl m) (fun _ => [])] [].
Proof.
  intros Hm. apply equal_weaken, equal_result. intros evs (F & HF & ->).
  exists (inl (events F)). split; [|apply gives_nothing; now apply well_nested_events].
  destruct (selects_in_same d m F) as [xs Hxs]. eapply select_result; eauto.
  - intros k. exists true. constructor.
  - apply valid_args_wrap; auto. intros q [k ->]. apply empty_valid.
  - split; [symmetry; apply map_length|]. intros k x r Hx Hr.
    rewrite nth_error_map, Hx in Hr. injection Hr as <-. apply gives_nothing, well_nested_tree.
    apply (selects_in_proper _ _ _ _ _ _ Hxs HF). eapply nth_error_In; eauto.
Qed.

(** What is left when the matching elements are removed. *)
Lemma selects_pruned m F xs rs out : Selects m F xs rs out -> Proper F -> Forall (fun r => r = []) rs ->
  exists F', Proper F' /\ out = events F' /\ Selects m F' [] [] out.
Proof.
  induction 1; intros HF Hr.
  - exists []. split; [apply proper_nil|]. split; [reflexivity|constructor].
  - apply proper_cons in HF as [Hx HF]. inversion Hr; subst. apply IHSelects; auto.
  - apply proper_cons in HF as [Hx HF]. destruct IHSelects as (F' & H1 & -> & H3); auto.
    exists (Leaf ev :: F'). split; [now apply proper_cons|]. split; [reflexivity|]. now apply Sel_leaf.
  - apply proper_cons in HF as [Hx HF]. apply Forall_app in Hr as [Hr1 Hr2].
    inversion Hx; subst.
    destruct IHSelects1 as (K & K1 & -> & K3); auto.
    destruct IHSelects2 as (F' & H3' & -> & H5'); auto.
    exists (Elem t a K c :: F'). split; [|split].
    + apply proper_cons. split; auto. now constructor.
    + rewrite events_cons, tree_events_elem. simpl. now rewrite <- app_assoc.
    + apply (Sel_inside m t a K c F' [] [] (events K) [] [] (events F')); auto.
Qed.
Lemma selects_direct_pruned m F xs rs out : SelectsDirect m F xs rs out -> Proper F ->
  Forall (fun r => r = []) rs -> exists F', Proper F' /\ out = events F' /\ SelectsDirect m F' [] [] out.
Proof.
  induction 1; intros HF Hr.
  - exists []. split; [apply proper_nil|]. split; [reflexivity|constructor].
  - apply proper_cons in HF as [Hx HF]. inversion Hr; subst. apply IHSelectsDirect; auto.
  - apply proper_cons in HF as [Hx HF]. destruct IHSelectsDirect as (F' & H1 & -> & H3); auto.
    exists (x :: F'). split; [now apply proper_cons|]. split; [reflexivity|]. now apply SelD_other.
Qed.
Lemma select_removed e d m b : ElementSelector m -> ElementBuilder b -> (forall k, ValidArgs (b k)) ->
  Equal e [OSelect d (inl m) (fun _ => [ORemove]); OSelect d (inl m) b]
          [OSelect d (inl m) (fun _ => [ORemove])].
Proof.
  intros Hm Hb Hv. apply equal_weaken, equal_result. intros evs (F & HF & ->).
  assert (ElementBuilder (fun _ => [ORemove])) as Hb1.
  { intros k. exists false. apply typed_one. constructor. }
  assert (ValidArgs [OSelect d (inl m) (fun _ => [ORemove])]) as Hv1.
  { apply valid_args_wrap; auto. intros q [k ->]. apply remove_valid. }
  assert (ValidArgs [OSelect d (inl m) b]) as Hv2.
  { apply valid_args_wrap; auto. intros q [k ->]. apply Hv. }
  destruct (selection_in_exists d m F) as [xs H].
  destruct (H (map (fun _ => []) xs)) as [out Ho]; [apply map_length|].
  assert (exists F', Proper F' /\ out = events F' /\ SelectsIn d m F' [] [] out) as (F' & HF' & Eo & Hs).
  { assert (Forall (fun r => r = []) (map (fun _ : tree => [] : list event) xs)) as Hall.
    { clear. induction xs; simpl; constructor; auto. }
    destruct d; simpl in *; [eapply selects_direct_pruned|eapply selects_pruned]; eauto. }
  assert (Gives (events F) [OSelect d (inl m) (fun _ => [ORemove])] (inl out)) as Hg.
  { eapply select_result; eauto. split; [symmetry; apply map_length|]. intros k x r Hx Hr.
    rewrite nth_error_map, Hx in Hr. injection Hr as <-. apply remove_result, well_nested_tree.
    apply (selects_in_proper _ _ _ _ _ _ Ho HF). eapply nth_error_In; eauto. }
  exists (inl out). split; [|exact Hg].
  assert (Gives out [OSelect d (inl m) b] (inl out)) as Hg2.
  { rewrite Eo at 1. eapply select_result; eauto. split; [reflexivity|]. intros k x r Hx. destruct k; discriminate. }
  pose proof (well_nested_events F HF) as Hw.
  assert (WellNested out) as Hwo by (rewrite Eo; now apply well_nested_events).
  assert (typed false [OSelect d (inl m) (fun _ => [ORemove])] false) as T1 by now apply typed_select.
  assert (typed false [OSelect d (inl m) b] false) as T2 by now apply typed_select.
  apply (gives_iff (events F) _ false false); [now apply good_template| |now apply (valid_args_app [_])|].
  - eapply (typed_app _ [_] _ [_]); eauto.
  - eapply gives_trace in Hg; [|now apply good_template|exact T1|exact Hv1].
    eapply gives_trace in Hg2; [|now apply good_template|exact T2|exact Hv2].
    change (inl out = outcome (d_pipe [OSelect d (inl m) b]
              (d_pipe [OSelect d (inl m) (fun _ => [ORemove])] (events F, None)))).
    now rewrite Hg, Hg2.
Qed.
Lemma once_nothing e d m : ElementSelector m -> Equal e [OSelectOnce d (inl m) []] [].
Proof.
  intros Hm. apply equal_weaken. eapply (equal_of _ _ _ false false).
  - apply typed_one. econstructor. constructor.
  - constructor.
  - apply valid_args_wrap; auto. intros q ->. apply empty_valid.
  - apply empty_valid.
  - intros evs Hg. simpl. unfold Good in Hg. simpl in Hg.
    assert (forall evs level st, nest st evs = Some [] -> level = length st ->
      d_select_once m (fun x => x) d level evs None = (evs, None)) as H.
    { clear evs Hg. induction evs as [|ev evs IH]; intros level st Hn Hl; [reflexivity|]. simpl.
      destruct (include d level && matches m ev) eqn:E.
      - apply andb_true_iff in E as [_ E]. specialize (Hm ev E).
        pose proof (single_good st ev evs [] None Hn (fun _ => eq_refl)) as Hs.
        destruct (d_single ev evs None) as [el rest] eqn:Ed. destruct Hs as [_ [(E1 & E2 & _)|E2]].
        + destruct el as [el t]. simpl in *. subst t. unfold tapp. simpl. now rewrite E1.
        + exfalso. apply E2. unfold d_single in Ed. destruct ev; simpl in Hm; try (now destruct Hm);
            try (injection Ed as <- <-; reflexivity).
          destruct (d_until tag 0 evs) as [[x y]|] eqn:Eu; injection Ed as <- <-; reflexivity.
      - simpl in Hn. destruct (nest1 st ev) as [st1|] eqn:En; [|discriminate].
        pose proof (nest1_adjust _ _ _ En) as Ha. rewrite <- Hl in Ha. rewrite Ha.
        now rewrite (IH (length st1) st1 Hn eq_refl). }
    unfold outcome. now rewrite (H evs 0 [] Hg eq_refl).
Qed.

(** ** Pipelines that never fail *)

Lemma never_fails e p e' : typed e p e' -> ValidArgs p -> ElementSelectors p ->
  (forall o err, Occurs p o -> ~ SuppliesError o err) -> NeverFails e p.
Proof.
  intros Ht Hv Hs Hn evs Hsel. destruct (always_result e p e' evs Ht Hv Hsel) as [[out|err] Hr]; eauto.
  exfalso. apply selection_good in Hsel.
  pose proof (gives_trace_error _ _ _ _ _ Hsel Ht Hv Hr) as Htr.
  destruct (from_pipe p e e' Ht (valid_args_well _ Hv) Hs _ err Hsel Htr) as [H|(o & Ho & H)]; [discriminate|].
  eapply Hn; eauto.
Qed.

(** ** Errors may change *)

Definition law_id (s : string) : ident := Ident (StaticStr (lit s)).
Definition law_fail (e : identifier_error) : pipeline := [OAppend (CResult (inr (SEIdentifier e)))].
Definition law_context (p : pipeline) : pipeline :=
  [OSelectOnce false (inl (SelTag (law_id "b"))) (law_fail IdEmpty)] ++ p ++
  [OSelectOnce false (inl (SelTag (law_id "a"))) (law_fail IdNotAscii)].
Definition law_input : list event := [VoidTag (law_id "a") []; VoidTag (law_id "b") []].
Definition law_collect : pipeline := [OApplyAsTemplate inl].

Lemma law_void s : (exists t, validate (lit s) = inl t) -> ProperTree (Leaf (VoidTag (law_id s) [])).
Proof.
  intros H. constructor; [exact I|]. split; [now apply validate_iff|intros a []].
Qed.
Lemma law_input_good : WellNested law_input.
Proof.
  exists [Leaf (VoidTag (law_id "a") []); Leaf (VoidTag (law_id "b") [])]. split; [|reflexivity].
  intros x [<-|[<-|[]]]; apply law_void; vm_compute; eauto.
Qed.
Lemma law_collect_valid : ValidArgs law_collect.
Proof.
  split; [|split; [|split]].
  - intros o i Ho. apply occurs_one in Ho; [subst; discriminate|simpl; auto].
  - intros o x Ho (c & Hc & _). apply occurs_one in Ho; [subst; discriminate|simpl; auto].
  - intros o g x y Ho Hg. apply occurs_one in Ho; [subst|simpl; auto]. injection Hg as <-.
    intros Hx [= <-]. exact Hx.
  - intros o x Ho (c & Hc & _). apply occurs_one in Ho; [subst; discriminate|simpl; auto].
Qed.
Lemma law_collect_typed e : typed e law_collect false.
Proof. apply typed_one. constructor. Qed.
Lemma law_collect_equal : Equal false [] law_collect.
Proof.
  eapply (equal_of _ _ _ false false); [constructor|apply law_collect_typed|apply empty_valid|
    apply law_collect_valid|reflexivity].
Qed.
Lemma law_fail_valid e : ValidArgs (law_fail e).
Proof. eapply valid_args_err. reflexivity. Qed.
Lemma law_select_valid s e : ValidArgs [OSelectOnce false (inl (SelTag (law_id s))) (law_fail e)].
Proof. apply valid_args_wrap; auto. intros q ->. apply law_fail_valid. Qed.
Lemma law_select_typed s e : typed false [OSelectOnce false (inl (SelTag (law_id s))) (law_fail e)] false.
Proof. apply typed_one. econstructor. apply typed_one. constructor. Qed.
Lemma law_context_valid p : ValidArgs p -> ValidArgs (law_context p).
Proof. intros H. apply valid_args_app; [apply law_select_valid|]. apply valid_args_app; [exact H|apply law_select_valid]. Qed.
Lemma law_context_typed p : typed false p false -> typed false (law_context p) false.
Proof. intros H. eapply typed_app; [apply law_select_typed|]. eapply typed_app; [exact H|apply law_select_typed]. Qed.
Lemma law_context_exchange p q : typed false p false -> typed false q false ->
  Exchange false p q false (law_context p) (law_context q) false.
Proof.
  intros Hp Hq. unfold law_context. eapply Ex_then; [apply Ex_same, law_select_typed|].
  eapply Ex_then; [|apply Ex_same, law_select_typed].
  apply (Ex_here false p q false false false); auto.
Qed.
Lemma law_errors_change : exists p q a b evs err err',
  Equal false p q /\ ValidArgs p /\ ValidArgs q /\
  Exchange false p q false a b false /\ typed false a false /\ typed false b false /\
  ValidArgs a /\ ValidArgs b /\
  WellNested evs /\ Gives evs a (inr err) /\ Gives evs b (inr err') /\ err <> err'.
Proof.
  exists [], law_collect, (law_context []), (law_context law_collect), law_input,
    (SEIdentifier IdNotAscii), (SEIdentifier IdEmpty).
  assert (typed false [] false) as Hn by constructor.
  pose proof (law_collect_typed false) as Hc.
  split; [apply law_collect_equal|]. split; [apply empty_valid|]. split; [apply law_collect_valid|].
  split; [now apply law_context_exchange|]. split; [now apply law_context_typed|].
  split; [now apply law_context_typed|]. split; [apply law_context_valid, empty_valid|].
  split; [apply law_context_valid, law_collect_valid|]. split; [apply law_input_good|].
  split; [|split; [|discriminate]].
  - exists 100. eexists. vm_compute. reflexivity.
  - exists 100. eexists. vm_compute. reflexivity.
Qed.

(** ** Order of attributes *)

Lemma set_order : exists i j v evs r r',
  ValidName (id_str i) /\ ValidName (id_str j) /\ ~ SameName (id_str i) (id_str j) /\
  Selection true evs /\
  Gives evs [OSetAttribute (inl i) v; OSetAttribute (inl j) v] (inl r) /\
  Gives evs [OSetAttribute (inl j) v; OSetAttribute (inl i) v] (inl r') /\
  display_events r <> display_events r'.
Proof.
  exists (law_id "a"), (law_id "b"), None, (tree_events (Leaf (VoidTag (law_id "a") []))).
  do 2 eexists. split; [apply validate_iff; vm_compute; eauto|].
  split; [apply validate_iff; vm_compute; eauto|].
  split; [rewrite <- eq_ignore_spec; vm_compute; discriminate|].
  split; [eexists; split; [|split; [|reflexivity]]; [apply law_void; vm_compute; eauto|exact I]|].
  split; [exists 100; eexists; vm_compute; reflexivity|].
  split; [exists 100; eexists; vm_compute; reflexivity|].
  vm_compute. discriminate.
Qed.
