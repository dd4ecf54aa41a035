(** What single API calls do (C22-C25, C28, C30-C32, C38). *)
From Coq Require Import String ZArith.
From stdpp Require Import gmap.
From Verif Require Import Text Event Input Parse Selector Machine Template StreamBase Api.
From Verif Require Import SpecText SpecAttr SpecParse SpecTree SpecTransform SpecOps.
From Verif Require Import TextProofs TextProofs2 AttrProofs AttrProofs2.
From Verif Require Import Event Machine Trace TraceProofs PipelineProofs FuelProofs TreeProofs ReachProofs.
From Verif Require Import StreamProofs StreamProofs2 StreamProofs3 ErrorProofs SelectionProofs.
Local Open Scope nat_scope.

Lemma selection_good e evs : Selection e evs -> Good e (evs, None).
Proof.
  destruct e; simpl.
  - intros (x & H1 & H2 & ->). now apply good_element.
  - apply good_template.
Qed.
Lemma good_selection e evs : Good e (evs, None) -> Selection e evs.
Proof.
  destruct e; simpl.
  - intros H. apply whole_element in H as (x & H1 & H2 & H3). eauto.
  - apply well_nested_iff.
Qed.
Lemma selection_well_nested e evs : Selection e evs -> WellNested evs.
Proof. intros H. apply selection_good, good_false in H. now apply well_nested_iff. Qed.

Lemma gives_of evs p e e' r : Selection e evs -> typed e p e' -> ValidArgs p ->
  r = outcome (d_pipe p (evs, None)) -> Gives evs p r.
Proof. intros Hs Ht Hv Hr. eapply gives_iff; eauto using selection_good. Qed.
Lemma of_gives evs p e e' r : Selection e evs -> typed e p e' -> ValidArgs p ->
  Gives evs p r -> r = outcome (d_pipe p (evs, None)).
Proof. intros Hs Ht Hv Hr. eapply gives_iff in Hr; eauto using selection_good. Qed.

(** ** Arguments *)

Lemma occurs_one o o' : (forall q, ~ Sub o q) -> Occurs [o] o' -> o' = o.
Proof.
  intros Hn H. inversion H; subst.
  - now destruct H0 as [->|[]].
  - destruct H0 as [->|[]]. now apply Hn in H1.
Qed.
Lemma valid_args_content o c : op_content o = Some c -> (forall evs, ContentGives c (inl evs) -> WellNested evs) ->
  (forall evs, ContentBreaks c evs -> exists rest, WellNested (evs ++ rest)) -> ValidArgs [o].
Proof.
  intros Ho Hc Hb.
  assert (forall q, ~ Sub o q) as Hn by (destruct o; try discriminate; simpl; auto).
  split; [|split; [|split]].
  - intros o' i Ho' Hi. apply occurs_one in Ho'; auto. subst. destruct o; discriminate.
  - intros o' evs Ho' (c' & Hc' & Hg). apply occurs_one in Ho'; auto. subst.
    rewrite Ho in Hc'. injection Hc' as <-. auto.
  - intros o' f x y Ho' Hf. apply occurs_one in Ho'; auto. subst. destruct o; discriminate.
  - intros o' evs Ho' (c' & Hc' & Hg). apply occurs_one in Ho'; auto. subst.
    rewrite Ho in Hc'. injection Hc' as <-. auto.
Qed.
Lemma breaks_gives c evs : ContentBreaks c evs -> exists e, ContentGives c (inr e).
Proof. induction 1 as [evs e|c evs _ [e IH]|e]; exists e; now constructor. Qed.
Lemma valid_args_ok o c r : op_content o = Some c -> ContentGives c (inl r) -> WellNested r -> ValidArgs [o].
Proof.
  intros Ho Hc Hr. eapply valid_args_content; eauto.
  - intros evs He. apply content_gives_det in Hc, He. rewrite <- Hc in He. now injection He as ->.
  - intros evs He. apply breaks_gives in He as [e He].
    apply content_gives_det in Hc, He. rewrite <- Hc in He. discriminate.
Qed.
Lemma valid_args_err o e : op_content o = Some (CResult (inr e)) -> ValidArgs [o].
Proof.
  intros Ho. eapply valid_args_content; eauto.
  - intros evs He. inversion He.
  - intros evs He. inversion He; subst. exists []. exists []. split; [apply proper_nil|reflexivity].
Qed.
Lemma valid_args_plain o : (forall q, ~ Sub o q) -> op_content o = None -> op_function o = None ->
  (forall i, op_name o = Some (inl i) -> ValidName (id_str i)) -> ValidArgs [o].
Proof.
  intros Hn H1 H2 H3. split; [|split; [|split]].
  - intros o' i Ho'. apply occurs_one in Ho'; auto. subst. auto.
  - intros o' evs Ho' (c & Hc & _). apply occurs_one in Ho'; auto. subst. congruence.
  - intros o' f x y Ho' Hf. apply occurs_one in Ho'; auto. subst. congruence.
  - intros o' evs Ho' (c & Hc & _). apply occurs_one in Ho'; auto. subst. congruence.
Qed.

Lemma valid_args_wrap o : op_content o = None -> op_name o = None -> op_function o = None ->
  (forall q, Sub o q -> ValidArgs q) -> ValidArgs [o].
Proof.
  intros H1 H2 H3 Hq.
  assert (forall x, Occurs [o] x -> x = o \/ exists q, Sub o q /\ Occurs q x) as Hocc.
  { intros x Hx. inversion Hx; subst.
    - destruct H as [->|[]]. auto.
    - destruct H as [->|[]]. eauto. }
  split; [|split; [|split]].
  - intros x i Hx. apply Hocc in Hx as [->|(q & Hs & Hx)]; [congruence|]. now apply (Hq q Hs).
  - intros x evs Hx Hsup. apply Hocc in Hx as [->|(q & Hs & Hx)].
    + destruct Hsup as (c & Hc & _). congruence.
    + apply (Hq q Hs) in Hsup; auto.
  - intros x f y z Hx. apply Hocc in Hx as [->|(q & Hs & Hx)]; [congruence|]. now apply (Hq q Hs).
  - intros x evs Hx Hsup. apply Hocc in Hx as [->|(q & Hs & Hx)].
    + destruct Hsup as (c & Hc & _). congruence.
    + apply (Hq q Hs) in Hsup; auto.
Qed.

Lemma content_trace c r : ContentGives c (inl r) -> d_content c = (r, None).
Proof.
  intros H. apply content_gives_det in H. unfold outcome in H.
  destruct (d_content c) as [evs [e|]]; simpl in H; congruence.
Qed.
Lemma content_trace_error c e : ContentGives c (inr e) -> snd (d_content c) = Some e.
Proof.
  intros H. apply content_gives_det in H. unfold outcome in H.
  destruct (snd (d_content c)); congruence.
Qed.

(** ** C22 *)

Lemma remove_result evs : WellNested evs -> Gives evs [ORemove] (inl []).
Proof.
  intros H. eapply (gives_of evs [ORemove] false); simpl; eauto.
  - apply typed_one. constructor.
  - apply valid_args_plain; simpl; auto; discriminate.
Qed.
Lemma no_noop_content c r : ContentGives c (inl r) -> ~ In Noop r -> NoNoop (fst (d_content c)).
Proof.
  intros Hc Hr. rewrite (content_trace _ _ Hc). apply Forall_forall. intros ev Hin ->.
  apply Hr. now apply elem_of_list_In.
Qed.
Lemma replace_result evs c r : WellNested evs -> ContentGives c (inl r) -> ~ In Noop r ->
  Gives evs [OReplace c] (inl r).
Proof.
  intros H Hc Hr. pose proof (no_noop_content _ _ Hc Hr) as Hn.
  destruct (transform_builds evs [OReplace c] (fun x => tapp (d_content c) (d_remove x)) false false)
    as [h Hh]; [now apply good_template|now apply builds_replace|]. apply ev_gives in Hh.
  rewrite (content_trace _ _ Hc) in Hh. unfold tapp, outcome in Hh. simpl in Hh. now rewrite app_nil_r in Hh.
Qed.
Lemma append_result evs c r : WellNested evs -> ContentGives c (inl r) -> ~ In Noop r ->
  Gives evs [OAppend c] (inl (evs ++ r)).
Proof.
  intros H Hc Hr. pose proof (no_noop_content _ _ Hc Hr) as Hn.
  destruct (transform_builds evs [OAppend c] (fun x => tapp x (d_content c)) false false)
    as [h Hh]; [now apply good_template|now apply builds_append|]. apply ev_gives in Hh.
  now rewrite (content_trace _ _ Hc) in Hh.
Qed.
Lemma prepend_result evs c r : WellNested evs -> ContentGives c (inl r) -> ~ In Noop r ->
  Gives evs [OPrepend c] (inl (r ++ evs)).
Proof.
  intros H Hc Hr. pose proof (no_noop_content _ _ Hc Hr) as Hn.
  destruct (transform_builds evs [OPrepend c] (fun x => tapp (d_content c) x) false false)
    as [h Hh]; [now apply good_template|now apply builds_prepend|]. apply ev_gives in Hh.
  now rewrite (content_trace _ _ Hc) in Hh.
Qed.
Lemma strip_no_noop evs : NoNoop (strip_noops evs).
Proof. induction evs as [|[] evs IH]; simpl; try (constructor; [discriminate|]); auto. constructor. Qed.
Lemma failing_no_noop c e : ContentGives c (inr e) -> NoNoop (fst (d_content c)).
Proof.
  intros H. remember (inr e) as r eqn:Er. induction H; try discriminate; simpl; auto.
  - apply strip_no_noop.
  - constructor.
Qed.
Lemma content_failure evs c o e : WellNested evs -> o = OReplace c \/ o = OAppend c \/ o = OPrepend c ->
  ContentGives c (inr e) -> Gives evs [o] (inr e).
Proof.
  intros H Ho Hc. pose proof (failing_no_noop _ _ Hc) as Hn. apply content_trace_error in Hc.
  pose proof (good_template _ H) as Hg.
  destruct Ho as [->|[->| ->]].
  - destruct (transform_builds evs [OReplace c] (fun x => tapp (d_content c) (d_remove x)) false false Hg)
      as [h Hh]; [now apply builds_replace|]. apply ev_gives in Hh.
    unfold outcome, tapp in Hh. rewrite Hc in Hh. exact Hh.
  - destruct (transform_builds evs [OAppend c] (fun x => tapp x (d_content c)) false false Hg)
      as [h Hh]; [now apply builds_append|]. apply ev_gives in Hh.
    unfold outcome, tapp in Hh. simpl in Hh. rewrite Hc in Hh. exact Hh.
  - destruct (transform_builds evs [OPrepend c] (fun x => tapp (d_content c) x) false false Hg)
      as [h Hh]; [now apply builds_prepend|]. apply ev_gives in Hh.
    unfold outcome, tapp in Hh. rewrite Hc in Hh. exact Hh.
Qed.

(** ** Contents *)

Lemma inside_element x o kids c : Inside x o kids c -> IsElement x.
Proof. intros H. inversion H; exact I. Qed.
Lemma inside_proper x o kids c : Inside x o kids c -> ProperTree x -> Proper kids.
Proof. intros H Hp. inversion H; subst; [now inversion Hp|apply proper_nil]. Qed.
Lemma inside_selection x o kids c : Inside x o kids c -> ProperTree x -> Selection true (tree_events x).
Proof. intros H Hp. exists x. eauto using inside_element. Qed.
Lemma contents_trace g x o kids c : Inside x o kids c ->
  outcome (d_contents g (tree_events x, None)) = around [o] (outcome (g (events kids, None))) [c].
Proof.
  intros H. inversion H; subst.
  - rewrite tree_events_elem. unfold d_contents. rewrite removelast_last, last_last. apply around_outcome.
  - unfold d_contents. simpl tree_events. cbv iota. apply around_outcome.
Qed.
Lemma void_trace g t a : outcome (d_contents g (tree_events (Leaf (VoidTag t a)), None)) =
  inl (tree_events (Leaf (VoidTag t a))).
Proof. reflexivity. Qed.


Lemma contents_of_trace o o' : ContentsOf o o' -> forall x, d_op o x = d_contents (d_op o') x.
Proof. intros []; reflexivity. Qed.
Lemma contents_of_sub o o' q : ContentsOf o o' -> (Sub o q <-> Sub o' q).
Proof. intros []; reflexivity. Qed.
Lemma contents_of_args o o' : ContentsOf o o' ->
  op_content o = op_content o' /\ op_name o = None /\ op_name o' = None /\
  op_function o = None /\ op_function o' = None.
Proof. intros []; repeat split. Qed.
Lemma contents_of_valid o o' : ContentsOf o o' -> ValidArgs [o] <-> ValidArgs [o'].
Proof.
  intros Hc. destruct (contents_of_args _ _ Hc) as (E1 & E2 & E3 & E4 & E5).
  pose proof (fun q => contents_of_sub _ _ q Hc) as Hs.
  assert (forall o o' x, (forall q, Sub o q -> Sub o' q) -> Occurs [o] x -> x = o \/ Occurs [o'] x) as Hocc.
  { intros o1 o2 x Hq Hx. inversion Hx; subst.
    - destruct H as [->|[]]. auto.
    - destruct H as [->|[]]. right. eapply Occurs_deeper; [now left|eauto|auto]. }
  split; intros (H1 & H2 & H3 & H4); (split; [|split; [|split]]).
  - intros x i Hx. destruct (Hocc o' o x) as [->|Ho]; eauto; [intros; now apply Hs|congruence].
  - intros x evs Hx. destruct (Hocc o' o x) as [->|Ho]; eauto; [intros; now apply Hs|].
    intros (c & Hcc & Hg). apply (H2 o); [apply Occurs_here; now left|]. exists c. split; congruence.
  - intros x f y z Hx. destruct (Hocc o' o x) as [->|Ho]; eauto; [intros; now apply Hs|congruence].
  - intros x evs Hx. destruct (Hocc o' o x) as [->|Ho]; eauto; [intros; now apply Hs|].
    intros (c & Hcc & Hg). apply (H4 o); [apply Occurs_here; now left|]. exists c. split; congruence.
  - intros x i Hx. destruct (Hocc o o' x) as [->|Ho]; eauto; [intros; now apply Hs|congruence].
  - intros x evs Hx. destruct (Hocc o o' x) as [->|Ho]; eauto; [intros; now apply Hs|].
    intros (c & Hcc & Hg). apply (H2 o'); [apply Occurs_here; now left|]. exists c. split; congruence.
  - intros x f y z Hx. destruct (Hocc o o' x) as [->|Ho]; eauto; [intros; now apply Hs|congruence].
  - intros x evs Hx. destruct (Hocc o o' x) as [->|Ho]; eauto; [intros; now apply Hs|].
    intros (c & Hcc & Hg). apply (H4 o'); [apply Occurs_here; now left|]. exists c. split; congruence.
Qed.
Lemma contents_of_typed o o' e : ContentsOf o o' -> typed true [o] e -> exists e', typed false [o'] e'.
Proof.
  intros Hc Ht. inversion Ht; subst. destruct Hc; inversion H2; subst; eexists; apply typed_one;
    econstructor; eauto.
Qed.

Lemma contents_result o o' x op kids cl e r : ContentsOf o o' -> typed true [o] e -> ValidArgs [o] ->
  ProperTree x -> Inside x op kids cl -> Gives (events kids) [o'] r ->
  Gives (tree_events x) [o] (around [op] r [cl]).
Proof.
  intros Hc Ht Hv Hp Hi Hr. eapply gives_of; eauto using inside_selection. simpl.
  rewrite (contents_of_trace _ _ Hc). rewrite (contents_trace _ _ _ _ _ Hi). f_equal.
  destruct (contents_of_typed _ _ _ Hc Ht) as [e' Ht'].
  eapply of_gives in Hr; [exact Hr| |exact Ht'|]; [|now apply (contents_of_valid _ _ Hc)].
  apply well_nested_events. eapply inside_proper; eauto.
Qed.
Lemma contents_void o o' t a e : ContentsOf o o' -> typed true [o] e -> ValidArgs [o] ->
  ProperTree (Leaf (VoidTag t a)) -> Gives [VoidTag t a] [o] (inl [VoidTag t a]).
Proof.
  intros Hc Ht Hv Hp. eapply (gives_of [VoidTag t a] [o] true); eauto.
  - exists (Leaf (VoidTag t a)). repeat split; auto.
  - simpl. now rewrite (contents_of_trace _ _ Hc).
Qed.

(** ** Repetition *)

Lemma repeat_trace (bs : list pipeline) evs rs :
  Forall2 (fun p r => d_pipe p (evs, None) = (r, None)) bs rs ->
  d_op (ORepeat bs) (evs, None) = (List.concat rs, None).
Proof.
  intros H. change (fold_right (fun g y => tapp (g (evs, None)) y) ([], None) (map (fun p x => d_pipe p x) bs)
                    = (List.concat rs, None)).
  induction H as [|p r bs rs Hp _ IH]; [reflexivity|]. simpl. rewrite IH, Hp. reflexivity.
Qed.
Lemma repeat_trace_error (bs1 : list pipeline) p bs2 evs err :
  Forall (fun p => snd (d_pipe p (evs, None)) = None) bs1 -> snd (d_pipe p (evs, None)) = Some err ->
  snd (d_op (ORepeat (bs1 ++ p :: bs2)) (evs, None)) = Some err.
Proof.
  intros H He. change (snd (fold_right (fun g y => tapp (g (evs, None)) y) ([], None)
                         (map (fun p x => d_pipe p x) (bs1 ++ p :: bs2))) = Some err).
  induction H as [|q bs1 Hq _ IH]; simpl.
  - now apply tapp_snd.
  - now rewrite tapp_snd_none.
Qed.

Lemma repeat_sub_valid bs p : ValidArgs [ORepeat bs] -> In p bs -> ValidArgs p.
Proof. intros H Hp. eapply valid_args_sub; eauto; [now left|exact Hp]. Qed.
Lemma repeat_result e evs bs rs : Selection e evs ->
  Forall (fun p => exists e', typed e p e') bs -> ValidArgs [ORepeat bs] ->
  Forall2 (fun p r => Gives evs p (inl r)) bs rs ->
  Gives evs [ORepeat bs] (inl (List.concat rs)).
Proof.
  intros Hs Ht Hv H. eapply gives_of; eauto; [apply typed_one; econstructor; eauto|].
  simpl. change (inl (List.concat rs) = outcome (d_op (ORepeat bs) (evs, None))).
  rewrite (repeat_trace bs evs rs); auto.
  assert (forall p, In p bs -> ValidArgs p /\ exists e', typed e p e') as Hall.
  { intros p Hp. split; [eapply repeat_sub_valid; eauto|]. rewrite Forall_forall in Ht. apply Ht.
    now apply elem_of_list_In. }
  clear Ht Hv. induction H as [|p r bs rs Hp _ IH]; constructor.
  - destruct (Hall p (or_introl eq_refl)) as [Hv [e' Ht]]. eapply gives_trace; eauto using selection_good.
  - apply IH. intros q Hq. apply Hall. now right.
Qed.
Lemma repeat_failure e evs bs1 p bs2 err : Selection e evs ->
  Forall (fun p => exists e', typed e p e') (bs1 ++ p :: bs2) -> ValidArgs [ORepeat (bs1 ++ p :: bs2)] ->
  (forall q, In q bs1 -> exists r, Gives evs q (inl r)) -> Gives evs p (inr err) ->
  Gives evs [ORepeat (bs1 ++ p :: bs2)] (inr err).
Proof.
  intros Hs Ht Hv H1 H2. eapply gives_of; eauto; [apply typed_one; econstructor; eauto|].
  simpl. change (inr err = outcome (d_op (ORepeat (bs1 ++ p :: bs2)) (evs, None))).
  assert (forall q, In q (bs1 ++ p :: bs2) -> ValidArgs q /\ exists e', typed e q e') as Hall.
  { intros q Hq. split; [eapply repeat_sub_valid; eauto|]. rewrite Forall_forall in Ht. apply Ht.
    now apply elem_of_list_In. }
  unfold outcome. rewrite (repeat_trace_error bs1 p bs2 evs err); auto.
  - apply Forall_forall. intros q Hq. apply elem_of_list_In in Hq.
    destruct (Hall q) as [Hvq [e' Htq]]; [apply in_or_app; auto|]. destruct (H1 q Hq) as [r Hr].
    now rewrite (gives_trace evs q e e' r) by eauto using selection_good.
  - destruct (Hall p) as [Hvq [e' Htq]]; [apply in_or_app; right; now left|].
    eapply gives_trace_error; eauto using selection_good.
Qed.

(** ** Chaining *)

Lemma d_pipe_app p q x : d_pipe (p ++ q) x = d_pipe q (d_pipe p x).
Proof. revert x. induction p as [|o p IH]; intros x; simpl; auto. Qed.
Lemma typed_app e p q e' : typed e (p ++ q) e' <-> exists e1, typed e p e1 /\ typed e1 q e'.
Proof.
  split.
  - revert e. induction p as [|o p IH]; simpl; intros e H.
    + exists e. split; [constructor|exact H].
    + inversion H; subst. apply IH in H5 as (e1 & H5 & H6). exists e1. split; auto. econstructor; eauto.
  - intros (e1 & H1 & H2). induction H1; simpl; auto. econstructor; eauto.
Qed.
Lemma valid_args_app_l p q : ValidArgs (p ++ q) -> ValidArgs p.
Proof. intros H. eapply valid_args_incl; eauto. intros. apply in_or_app. auto. Qed.
Lemma valid_args_app_r p q : ValidArgs (p ++ q) -> ValidArgs q.
Proof. intros H. eapply valid_args_incl; eauto. intros. apply in_or_app. auto. Qed.

Lemma gives_selection e p e' evs mid : Selection e evs -> typed e p e' -> ValidArgs p ->
  Gives evs p (inl mid) -> Selection e' mid.
Proof.
  intros Hs Ht Hv Hg. eapply gives_trace in Hg; eauto using selection_good.
  apply good_selection. rewrite <- Hg.
  now apply (keeps_pipe p e e' Ht (valid_args_well _ Hv) (evs, None) (selection_good _ _ Hs)).
Qed.
Lemma chain_result e p q e' evs mid r : Selection e evs -> typed e (p ++ q) e' -> ValidArgs (p ++ q) ->
  Gives evs p (inl mid) -> (Gives evs (p ++ q) r <-> Gives mid q r).
Proof.
  intros Hs Ht Hv Hp. apply typed_app in Ht as Ht'. destruct Ht' as (e1 & Ht1 & Ht2).
  pose proof (gives_selection _ _ _ _ _ Hs Ht1 (valid_args_app_l _ _ Hv) Hp) as Hmid.
  pose proof (gives_trace _ _ _ _ _ (selection_good _ _ Hs) Ht1 (valid_args_app_l _ _ Hv) Hp) as Htr.
  rewrite (gives_iff _ _ _ _ r (selection_good _ _ Hs) Ht Hv).
  rewrite (gives_iff _ _ _ _ r (selection_good _ _ Hmid) Ht2 (valid_args_app_r _ _ Hv)).
  now rewrite d_pipe_app, Htr.
Qed.
Lemma chain_failure e p q e' evs err : Selection e evs -> typed e (p ++ q) e' -> ValidArgs (p ++ q) ->
  Gives evs p (inr err) -> exists err', Gives evs (p ++ q) (inr err').
Proof.
  intros Hs Ht Hv Hp. apply typed_app in Ht as Ht'. destruct Ht' as (e1 & Ht1 & Ht2).
  pose proof (gives_trace_error _ _ _ _ _ (selection_good _ _ Hs) Ht1 (valid_args_app_l _ _ Hv) Hp) as Htr.
  assert (snd (d_pipe (p ++ q) (evs, None)) <> None) as Hne.
  { rewrite d_pipe_app. eapply keeps_error_pipe; eauto.
    - apply valid_args_well. eapply valid_args_app_r; eauto.
    - apply (keeps_pipe p e e1 Ht1); [eapply valid_args_well, valid_args_app_l; eauto|now apply selection_good].
    - congruence. }
  destruct (snd (d_pipe (p ++ q) (evs, None))) as [err'|] eqn:E; [|congruence].
  exists err'. eapply gives_iff; eauto using selection_good. unfold outcome. now rewrite E.
Qed.
Lemma chain_error e p q e' evs err err' : Selection e evs -> typed e (p ++ q) e' -> ValidArgs (p ++ q) ->
  ElementSelectors q -> Gives evs p (inr err) -> Gives evs (p ++ q) (inr err') ->
  err' = err \/ exists o, Occurs q o /\ SuppliesError o err'.
Proof.
  intros Hs Ht Hv Hq Hp Hpq. apply typed_app in Ht as Ht'. destruct Ht' as (e1 & Ht1 & Ht2).
  pose proof (gives_trace_error _ _ _ _ _ (selection_good _ _ Hs) Ht1 (valid_args_app_l _ _ Hv) Hp) as Htr.
  pose proof (gives_trace_error _ _ _ _ _ (selection_good _ _ Hs) Ht Hv Hpq) as Htr'.
  rewrite d_pipe_app in Htr'.
  destruct (from_pipe q e1 e' Ht2 (valid_args_well _ (valid_args_app_r _ _ Hv)) Hq (d_pipe p (evs, None)) err') as [H|H]; [|exact Htr'|..].
  - apply (keeps_pipe p e e1 Ht1); [eapply valid_args_well, valid_args_app_l; eauto|now apply selection_good].
  - left. congruence.
  - right. exact H.
Qed.
Lemma chain_same_error e p q e' evs err : Selection e evs -> typed e (p ++ q) e' -> ValidArgs (p ++ q) ->
  ElementSelectors q -> (forall o err', Occurs q o -> ~ SuppliesError o err') ->
  Gives evs p (inr err) -> Gives evs (p ++ q) (inr err).
Proof.
  intros Hs Ht Hv Hq Hn Hp. destruct (chain_failure _ _ _ _ _ _ Hs Ht Hv Hp) as [err' H'].
  destruct (chain_error _ _ _ _ _ _ _ Hs Ht Hv Hq Hp H') as [->|(o & Ho & Hx)]; [exact H'|].
  now apply Hn in Hx.
Qed.

(** ** Conditional application *)

Lemma typed_mono o : forall e', typed_op false o e' -> exists e'', typed_op true o e'' /\ (e' = true -> e'' = true).
Proof.
  revert o. apply (op_sub_ind (fun o => forall e', typed_op false o e' ->
    exists e'', typed_op true o e'' /\ (e' = true -> e'' = true))).
  intros o IH e' Ht.
  assert (forall q, Sub o q -> forall q' f e1, typed f q' e1 -> (forall o', In o' q' -> In o' q) ->
    forall e, (f = true -> e = true) -> exists e'', typed e q' e'' /\ (e1 = true -> e'' = true)) as Hgen.
  { intros q Hs q' f e1 H. induction H; intros Hin g Hg.
    - exists g. split; [constructor|auto].
    - assert (exists g2, typed_op g o0 g2 /\ (e2 = true -> g2 = true)) as (g2 & Hg2 & Hle).
      { destruct e1, g.
        - eauto.
        - specialize (Hg eq_refl). discriminate.
        - apply (IH q Hs o0); auto. apply Hin. now left.
        - eauto. }
      destruct (IHtyped ltac:(intros; apply Hin; now right) g2 Hle) as (e'' & H3 & H4).
      exists e''. split; auto. econstructor; eauto. }
  assert (forall q e e', Sub o q -> typed false q e' -> exists e'', typed e q e'' /\ (e' = true -> e'' = true)) as Hq.
  { intros q e e1 Hs Hty. apply (Hgen q Hs q false e1); auto. discriminate. }
  assert (forall bs, (forall q, In q bs -> Sub o q) -> Forall (fun p => exists e', typed false p e') bs ->
    Forall (fun p => exists e', typed true p e') bs) as Hbs.
  { intros bs Hs Hf. apply Forall_forall. intros q Hin. rewrite Forall_forall in Hf.
    destruct (Hf q Hin) as [e1 H1]. apply elem_of_list_In in Hin.
    destruct (Hq q true e1 (Hs q Hin) H1) as (e2 & H2 & _). eauto. }
  inversion Ht; subst.
  - destruct (Hq p true e') as (e'' & H1 & H2); simpl; auto. exists e''. split; auto. now constructor.
  - exists false. split; auto. constructor.
  - destruct (Hq p true e'0) as (e'' & H1 & H2); simpl; auto. exists (e'' && other). split; [now constructor|].
    intros Hb. apply andb_true_iff in Hb as [Hb1 Hb2]. rewrite (H2 Hb1), Hb2. reflexivity.
  - exists false. split; auto. constructor.
  - exists false. split; auto. constructor. auto.
  - exists false. split; auto. econstructor; eauto.
  - exists false. split; auto. constructor.
  - exists false. split; auto. constructor.
  - exists false. split; auto. constructor.
  - exists false. split; auto. constructor.
  - exists false. split; auto. constructor. apply Hbs; auto.
  - destruct (Hq p true e'0) as (e'' & H1 & H2); simpl; auto. exists false. split; auto.
    econstructor; [|eauto]. apply Hbs; simpl; auto.
Qed.
Lemma typed_le p f e1 : typed f p e1 -> forall e, (f = true -> e = true) ->
  exists e'', typed e p e'' /\ (e1 = true -> e'' = true).
Proof.
  intros H. induction H; intros g Hg.
  - exists g. split; [constructor|auto].
  - assert (exists g2, typed_op g o g2 /\ (e2 = true -> g2 = true)) as (g2 & Hg2 & Hle).
    { destruct e1, g; eauto.
      - specialize (Hg eq_refl). discriminate.
      - now apply typed_mono. }
    destruct (IHtyped g2 Hle) as (e'' & H3 & H4). exists e''. split; auto. econstructor; eauto.
Qed.

(** [o] applies the builder [q] and nothing else. *)
Definition Applies (o : op) (q : pipeline) : Prop :=
  o = OApply q \/ (exists first other, o = OApplyEither first q other) \/
  ((o = OIntoBoxed \/ o = OIntoBoxedElement) /\ q = []).
Lemma applies_trace o q x : Applies o q -> d_op o x = d_pipe q x.
Proof.
  intros [->|[(f & ot & ->)|[[->| ->] ->]]]; reflexivity.
Qed.
Lemma applies_typed o q e e' : Applies o q -> typed_op e o e' -> exists e'', typed e q e'' /\ (e' = true -> e'' = true).
Proof.
  intros [->|[(f & ot & ->)|[[->| ->] ->]]] Ht; inversion Ht; subst; eauto.
  - eexists. split; eauto. intros H. now apply andb_true_iff in H.
  - exists e. split; [constructor|discriminate].
  - exists true. split; [constructor|auto].
Qed.
Lemma applies_valid o q : Applies o q -> ValidArgs [o] -> ValidArgs q.
Proof.
  intros [->|[(f & ot & ->)|[_ ->]]] Hv.
  - eapply valid_args_sub; eauto; [now left|reflexivity].
  - eapply valid_args_sub; eauto; [now left|reflexivity].
  - eapply valid_args_incl; eauto. intros o' [].
Qed.
Lemma applies_result o q e p1 p2 e' evs r : Applies o q -> Selection e evs ->
  typed e (p1 ++ o :: p2) e' -> ValidArgs (p1 ++ o :: p2) ->
  (Gives evs (p1 ++ o :: p2) r <-> Gives evs (p1 ++ q ++ p2) r).
Proof.
  intros Ha Hs Ht Hv.
  assert (exists e'', typed e (p1 ++ q ++ p2) e'') as [e'' Ht2].
  { apply typed_app in Ht as (e1 & H1 & H2). inversion H2; subst.
    destruct (applies_typed _ _ _ _ Ha H4) as (e2' & H5 & Hle).
    destruct (typed_le _ _ _ H6 e2' Hle) as (e3 & H7 & _).
    exists e3. apply typed_app. exists e1. split; auto. apply typed_app. exists e2'. auto. }
  assert (ValidArgs (p1 ++ q ++ p2)) as Hv2.
  { apply valid_args_app; [eapply valid_args_app_l; eauto|]. apply valid_args_app_r in Hv.
    change (o :: p2) with ([o] ++ p2) in Hv. apply valid_args_app.
    - eapply applies_valid; eauto. eapply valid_args_app_l; eauto.
    - eapply valid_args_app_r; eauto. }
  rewrite (gives_iff _ _ _ _ r (selection_good _ _ Hs) Ht Hv).
  rewrite (gives_iff _ _ _ _ r (selection_good _ _ Hs) Ht2 Hv2).
  rewrite !d_pipe_app. simpl. now rewrite (applies_trace o q).
Qed.

(** ** [apply_as_template] *)

Lemma as_template_result evs f : WellNested evs ->
  (forall x y, WellNested x -> f x = inl y -> WellNested y) ->
  Gives evs [OApplyAsTemplate f] (f evs).
Proof.
  intros Hw Hf. eapply (gives_of evs [OApplyAsTemplate f] false); simpl; eauto.
  - apply typed_one. constructor.
  - split; [|split; [|split]].
    + intros o i Ho. apply occurs_one in Ho; [subst; discriminate|simpl; auto].
    + intros o x Ho (c & Hc & _). apply occurs_one in Ho; [subst; discriminate|simpl; auto].
    + intros o g x y Ho Hg. apply occurs_one in Ho; [subst|simpl; auto]. injection Hg as <-. eauto.
    + intros o x Ho (c & Hc & _). apply occurs_one in Ho; [subst; discriminate|simpl; auto].
  - unfold d_as_template. simpl. destruct (f evs); reflexivity.
Qed.

(** ** Attributes *)

Lemma reattr_element x a y a' : Reattr x a y a' -> IsElement x.
Proof. intros H. inversion H; exact I. Qed.
Lemma reattr_exists x a' : ProperTree x -> IsElement x -> exists a y, Reattr x a y a'.
Proof.
  intros Hp. destruct x as [ev|t a kids c]; simpl; [|do 2 eexists; constructor].
  inversion Hp; subst. destruct ev; try contradiction; do 2 eexists; constructor.
Qed.
Lemma reattr_valid x a y a' : Reattr x a y a' -> ProperTree x -> ValidAttrs a.
Proof. intros H Hp. inversion H; subst; inversion Hp; subst; simpl in *; tauto. Qed.
Lemma attr_trace c x a y : Reattr x a y (apply_attr c a) ->
  outcome (d_attr c (tree_events x, None)) = inl (tree_events y).
Proof. intros H. inversion H; subst; reflexivity. Qed.

(** The attribute command of a call. *)
Definition op_command (o : op) : option attr_cmd :=
  match o with
  | OAddAttribute (inl name) v => Some (AAddAttribute name v)
  | OAddToAttribute (inl name) v sep => Some (AAddToAttribute name v sep)
  | OReplaceAttribute (inl name) v => Some (AReplaceAttribute name (Some v))
  | OSetAttribute (inl name) v => Some (ASetAttribute name v)
  | ORemoveAttribute (inl name) => Some (ARemoveAttribute name)
  | OAddClass (inl name) =>
      Some (AAddToAttribute class_ident (ident_into_value name) (enc_from_unencoded_static_str (lit " ")))
  | ORemoveClass (inl name) => Some (ARemoveClass name)
  | ORemoveId => Some (ARemoveAttribute id_ident)
  | OSetId (inl name) => Some (ASetAttribute id_ident (Some (ident_into_value name)))
  | _ => None
  end.
Lemma command_trace o c x : op_command o = Some c -> d_op o x = d_attr c x.
Proof.
  intros H. destruct o; simpl in *; try discriminate; try (match goal with n : (_ + _)%type |- _ => destruct n end; try discriminate);
    injection H as <-; reflexivity.
Qed.
Lemma command_valid o c : op_command o = Some c ->
  (forall i, op_name o = Some (inl i) -> ValidName (id_str i)) -> ValidArgs [o].
Proof.
  intros Hc Hn. apply valid_args_plain; auto; destruct o; simpl in *; try discriminate; auto.
Qed.
Lemma command_typed o c : op_command o = Some c -> typed true [o] true.
Proof. intros Hc. apply typed_one. destruct o; simpl in *; try discriminate; constructor. Qed.
Lemma command_result o c x a y : op_command o = Some c ->
  (forall i, op_name o = Some (inl i) -> ValidName (id_str i)) ->
  ProperTree x -> Reattr x a y (apply_attr c a) ->
  Gives (tree_events x) [o] (inl (tree_events y)).
Proof.
  intros Hc Hn Hp Hr. eapply (gives_of _ [o] true); eauto using command_typed, command_valid.
  - exists x. eauto using reattr_element.
  - simpl. rewrite (command_trace o c) by auto. symmetry. now apply attr_trace with a.
Qed.
Lemma attribute_command o : attribute_op o -> (exists c, op_command o = Some c) \/
  exists e, op_name o = Some (inr e).
Proof.
  destruct o; simpl; try contradiction; intros _; try (match goal with n : (_ + _)%type |- _ => destruct n end; simpl); eauto.
Qed.
Lemma attribute_result o x : attribute_op o -> (forall i, op_name o <> Some (inr i)) ->
  (forall i, op_name o = Some (inl i) -> ValidName (id_str i)) ->
  ProperTree x -> IsElement x ->
  exists a y a', Reattr x a y a' /\ Gives (tree_events x) [o] (inl (tree_events y)).
Proof.
  intros Ho He Hn Hp Hi. destruct (attribute_command o Ho) as [[c Hc]|[e H]]; [|now apply He in H].
  destruct (reattr_exists x [] Hp Hi) as (a & y0 & Hr).
  assert (exists y, Reattr x a y (apply_attr c a)) as [y Hy].
  { inversion Hr; subst; eexists; constructor. }
  exists a, y, (apply_attr c a). split; auto. eapply command_result; eauto.
Qed.
Lemma name_failure o x i : attribute_op o -> op_name o = Some (inr i) -> ProperTree x -> IsElement x ->
  Gives (tree_events x) [o] (inr (SEIdentifier i)).
Proof.
  intros Ho Hi Hp He.
  eapply (gives_of _ [o] true true).
  - exists x. auto.
  - apply typed_one. destruct o; simpl in *; try contradiction; constructor.
  - apply valid_args_plain; destruct o; simpl in *; try contradiction; auto; try discriminate; congruence.
  - destruct o; simpl in *; try contradiction; try discriminate; injection Hi as ->; reflexivity.
Qed.

(** ** Elements *)

Lemma with_transformed_result tag p e r : ValidTag tag -> typed true p e -> ValidArgs p ->
  ((exists n h, with_transformed_element n (inl tag) p = Done h r) <->
   exists evs, with_element (inl tag) = inl evs /\ Gives evs p r).
Proof.
  intros Htag Ht Hv.
  set (x := if is_void_tag (id_str tag) then VoidTag tag [] else SelfClosedTag tag []).
  assert (with_element (inl tag) = inl (tree_events (Leaf x))) as Hw.
  { unfold x. simpl. now destruct (is_void_tag (id_str tag)). }
  assert (ProperTree (Leaf x)) as Hp.
  { constructor; unfold x; destruct (is_void_tag (id_str tag)); simpl; auto; split; auto; intros ? []. }
  assert (IsElement (Leaf x)) as He.
  { unfold x. destruct (is_void_tag (id_str tag)); exact I. }
  assert (matches (SelTag tag) (start (Leaf x)) = true) as Hm.
  { assert (ident_eqb tag tag = true) as Hr by (apply ident_eqb_refl, valid_ascii; auto).
    unfold x. destruct (is_void_tag (id_str tag)); exact Hr. }
  assert (ValidArgs [OSelectOnce false (inl (SelTag tag)) p]) as Hv1 by (now apply valid_args_select_once).
  assert (forall s, Gives (tree_events (Leaf x)) p s ->
     Gives (tree_events (Leaf x)) [OSelectOnce false (inl (SelTag tag)) p] s) as Hgo.
  { intros s Hs.
    assert (s = around [] s []) as Hss by (destruct s; simpl; now rewrite ?app_nil_r). rewrite Hss.
    eapply once_result; eauto; [now apply well_nested_tree|now rewrite app_nil_r|intros ? []]. }
  split.
  - intros (n & h & H). unfold with_transformed_element in H. rewrite Hw in H.
    exists (tree_events (Leaf x)). split; auto.
    assert (Selection true (tree_events (Leaf x))) as Hsel by (exists (Leaf x); auto).
    pose proof (gives_of _ p _ _ _ Hsel Ht Hv eq_refl) as Hg.
    assert (Gives (tree_events (Leaf x)) [OSelectOnce false (inl (SelTag tag)) p] r) as Hr by (exists n, h; exact H).
    now rewrite (gives_det _ _ _ _ Hr (Hgo _ Hg)).
  - intros (evs & He' & Hg). rewrite Hw in He'. injection He' as <-. apply Hgo in Hg as (n & h & Hg).
    exists n, h. unfold with_transformed_element. now rewrite Hw.
Qed.
