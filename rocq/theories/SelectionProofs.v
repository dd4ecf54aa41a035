(** Selections on trees (C18-C21, C39). *)
From Coq Require Import String ZArith.
From stdpp Require Import gmap.
From Verif Require Import Text Event Input Parse Selector Machine Template StreamBase.
From Verif Require Import SpecText SpecAttr SpecParse SpecTree SpecTransform SpecOps.
From Verif Require Import Trace TraceProofs PipelineProofs FuelProofs TreeProofs ReachProofs ErrorProofs.
Local Open Scope nat_scope.

(** ** Equations *)

Lemma until_split tag : forall evs level el rest,
  d_until tag level evs = Some (el, rest) -> evs = el ++ rest.
Proof.
  induction evs as [|ev evs IH]; intros level el rest; simpl; [discriminate|].
  assert (forall l, match d_until tag l evs with
                    | Some (elem, rest) => Some (ev :: elem, rest) | None => None end = Some (el, rest) ->
                    ev :: evs = el ++ rest) as Hgo.
  { intros l. destruct (d_until tag l evs) as [[el' rest']|] eqn:E; [|discriminate].
    intros [= <- <-]. simpl. f_equal. eauto. }
  destruct (is_opening_tag_for ev tag); [apply Hgo|].
  destruct (is_closing_tag_for ev tag); [|apply Hgo].
  destruct level; [|apply Hgo]. intros [= <- <-]. reflexivity.
Qed.
Lemma single_rest ev rest t : length (snd (d_single ev rest t)) <= length rest.
Proof.
  destruct ev; simpl; auto. destruct (d_until tag 0 rest) as [[el rest']|] eqn:E; simpl; [|lia].
  apply until_split in E as ->. rewrite app_length. lia.
Qed.

Lemma select_fuel m g direct t : forall n n' level calls evs, length evs <= n -> length evs <= n' ->
  d_select n m g direct level calls evs t = d_select n' m g direct level calls evs t.
Proof.
  induction n as [|n IH]; intros n' level calls evs H1 H2.
  { destruct evs; [|simpl in H1; lia]. now destruct n'. }
  destruct evs as [|ev rest]; [now destruct n'|]. destruct n' as [|n']; [simpl in H2; lia|].
  simpl in *. destruct (include direct level && matches m ev).
  - pose proof (single_rest ev rest t) as Hr. destruct (d_single ev rest t) as [el rest'].
    simpl in Hr. f_equal. apply IH; lia.
  - destruct (adjust level ev); [|reflexivity]. f_equal. apply IH; lia.
Qed.

Definition dsel (m : selector) g direct level calls evs t : trace :=
  d_select (length evs) m g direct level calls evs t.

Lemma dsel_nil m g direct level calls t : dsel m g direct level calls [] t = ([], t).
Proof. reflexivity. Qed.
Lemma dsel_match m g direct level calls ev rest t :
  include direct level = true -> matches m ev = true ->
  dsel m g direct level calls (ev :: rest) t =
  let '(elem, rest') := d_single ev rest t in
  tapp (g calls elem) (dsel m g direct level (S calls) rest' t).
Proof.
  intros H1 H2. unfold dsel. cbn [length d_select]. rewrite H1, H2. simpl.
  pose proof (single_rest ev rest t) as Hr. destruct (d_single ev rest t) as [el rest'].
  simpl in Hr. f_equal. apply select_fuel; auto.
Qed.
Lemma dsel_skip m g direct level level' calls ev rest t :
  include direct level && matches m ev = false -> adjust level ev = inl level' ->
  dsel m g direct level calls (ev :: rest) t =
  tapp ([ev], None) (dsel m g direct level' calls rest t).
Proof. intros H1 H2. unfold dsel. cbn [length d_select]. now rewrite H1, H2. Qed.

Lemma tapp_ok x y : tapp (x, None) (tapp (y, None) ([], None)) = (x ++ y, None).
Proof. unfold tapp. simpl. now rewrite app_nil_r. Qed.
Lemma tapp_cons ev x y : tapp ([ev], None) (tapp (x, None) y) = tapp (ev :: x, None) y.
Proof. reflexivity. Qed.
Lemma tapp_app x y z : tapp (x, None) (tapp (y, None) z) = tapp (x ++ y, None) z.
Proof. unfold tapp. simpl. now rewrite app_assoc. Qed.

Lemma close_tag t a kids c tag : ProperTree (Elem t a kids c) -> ident_eqb c tag = ident_eqb t tag.
Proof. intros H. inversion H; subst. apply ident_eqb_replace, close_eqb; auto. Qed.

Lemma until_tree_skip tag : forall x, ProperTree x -> forall level rest,
  d_until tag level (tree_events x ++ rest) =
  match d_until tag level rest with
  | Some (el, r) => Some (tree_events x ++ el, r)
  | None => None
  end.
Proof.
  apply (tree_rect' (fun x => ProperTree x -> forall level rest,
    d_until tag level (tree_events x ++ rest) =
    match d_until tag level rest with
    | Some (el, r) => Some (tree_events x ++ el, r) | None => None end)).
  - intros ev Hp level rest. inversion Hp; subst. destruct ev; try contradiction; reflexivity.
  - intros t a kids c IH Hp level rest. pose proof (close_tag _ _ _ _ tag Hp) as Hc.
    assert (Proper kids) as Hk by (inversion Hp; subst; auto). clear Hp.
    assert (forall level rest, d_until tag level (events kids ++ rest) =
      match d_until tag level rest with
      | Some (el, r) => Some (events kids ++ el, r) | None => None end) as Hkids.
    { clear Hc. induction kids as [|x kids IHk]; intros level' rest'.
      - simpl. now destruct (d_until tag level' rest') as [[]|].
      - apply proper_cons in Hk as [Hx Hk]. rewrite events_cons, <- app_assoc.
        rewrite IH by (auto; now left). rewrite IHk; auto; [|intros; apply IH; auto; now right].
        destruct (d_until tag level' rest') as [[]|]; [|reflexivity]. now rewrite <- app_assoc. }
    rewrite tree_events_elem. cbn [app d_until]. unfold is_opening_tag_for at 1. cbn [opening_tag_name].
    unfold is_closing_tag_for at 1. rewrite <- app_assoc. cbn [app].
    destruct (ident_eqb t tag) eqn:Et; rewrite Hkids; cbn [d_until];
      unfold is_opening_tag_for, is_closing_tag_for; cbn [opening_tag_name]; rewrite Hc;
      destruct (d_until tag level rest) as [[el r]|]; auto; simpl; now rewrite <- app_assoc.
Qed.
Lemma until_events_skip tag F level rest : Proper F ->
  d_until tag level (events F ++ rest) =
  match d_until tag level rest with
  | Some (el, r) => Some (events F ++ el, r)
  | None => None
  end.
Proof.
  induction F as [|x F IH]; intros H.
  - simpl. now destruct (d_until tag level rest) as [[]|].
  - apply proper_cons in H as [Hx HF]. rewrite events_cons, <- app_assoc, until_tree_skip, IH; auto.
    destruct (d_until tag level rest) as [[]|]; [|reflexivity]. now rewrite <- app_assoc.
Qed.

(** The element that begins where a tree begins is this tree. *)
Lemma single_tree x rest t : ProperTree x -> IsElement x ->
  exists tl, tree_events x ++ rest = start x :: tl ++ rest /\
             d_single (start x) (tl ++ rest) t = ((tree_events x, None), rest).
Proof.
  intros Hp Hi. inversion Hp; subst.
  - exists []. split; [reflexivity|]. destruct ev; try contradiction; reflexivity.
  - exists (events kids ++ [ClosingTag c]). rewrite tree_events_elem. split; [reflexivity|].
    simpl. rewrite <- app_assoc, until_events_skip by assumption. simpl.
    unfold is_opening_tag_for. simpl. rewrite (close_eqb t0 c); auto.
Qed.

Lemma start_element m x : ElementSelector m -> ProperTree x -> matches m (start x) = true -> IsElement x.
Proof.
  intros Hm Hp H. apply Hm in H. unfold IsElement. destruct (start x); simpl in H; try exact I; now apply H.
Qed.

(** ** [select] *)

Lemma dsel_tree m g direct level calls x rest t :
  include direct level = true -> matches m (start x) = true -> ProperTree x -> IsElement x ->
  dsel m g direct level calls (tree_events x ++ rest) t =
  tapp (g calls (tree_events x, None)) (dsel m g direct level (S calls) rest t).
Proof.
  intros Hi Hm Hp He. destruct (single_tree x rest t Hp He) as (tl & -> & Hs).
  rewrite dsel_match by assumption. now rewrite Hs.
Qed.
Lemma adjust_leaf ev level : is_leaf ev -> adjust level ev = inl level.
Proof. destruct ev; try contradiction; reflexivity. Qed.
Lemma dsel_leaf m g direct level calls ev rest t :
  include direct level && matches m ev = false -> is_leaf ev ->
  dsel m g direct level calls (ev :: rest) t = tapp ([ev], None) (dsel m g direct level calls rest t).
Proof. intros H Hl. apply dsel_skip; auto. now apply adjust_leaf. Qed.

Lemma selects_length m F xs rs out : Selects m F xs rs out -> length xs = length rs.
Proof. induction 1; simpl; auto. rewrite !app_length. congruence. Qed.
Lemma selects_direct_length m F xs rs out : SelectsDirect m F xs rs out -> length xs = length rs.
Proof. induction 1; simpl; auto. Qed.

(** [g], from call [calls] on, turns the trees [xs] into [rs]. *)
Definition Turns (g : nat -> trace -> trace) (calls : nat) (xs : list tree) (rs : list (list event)) :=
  forall k x r, nth_error xs k = Some x -> nth_error rs k = Some r ->
    g (calls + k) (tree_events x, None) = (r, None).
Lemma turns_cons g calls x xs r rs : Turns g calls (x :: xs) (r :: rs) ->
  g calls (tree_events x, None) = (r, None) /\ Turns g (S calls) xs rs.
Proof.
  intros H. split.
  - specialize (H 0 x r eq_refl eq_refl). now rewrite Nat.add_0_r in H.
  - intros k y s Hy Hs. specialize (H (S k) y s Hy Hs). now rewrite Nat.add_succ_r in H.
Qed.
Lemma turns_app g calls xs1 rs1 xs2 rs2 : length xs1 = length rs1 ->
  Turns g calls (xs1 ++ xs2) (rs1 ++ rs2) ->
  Turns g calls xs1 rs1 /\ Turns g (calls + length xs1) xs2 rs2.
Proof.
  intros Hl H. split; intros k x r Hx Hr.
  - apply H; rewrite nth_error_app1; auto; apply nth_error_Some; congruence.
  - rewrite <- Nat.add_assoc. apply H.
    + rewrite nth_error_app2 by lia. now replace (length xs1 + k - length xs1) with k by lia.
    + rewrite nth_error_app2 by lia. now replace (length xs1 + k - length rs1) with k by lia.
Qed.

Lemma selects_dsel m g t : ElementSelector m -> forall F xs rs out, Selects m F xs rs out ->
  forall level calls rest, Proper F -> Turns g calls xs rs ->
  dsel m g false level calls (events F ++ rest) t =
  tapp (out, None) (dsel m g false level (calls + length xs) rest t).
Proof.
  intros Hm F xs rs out H. induction H; intros level calls rest HF Hg.
  - now rewrite tapp_nil_l, Nat.add_0_r.
  - apply proper_cons in HF as [Hx HF]. apply turns_cons in Hg as [Hg1 Hg2].
    rewrite events_cons, <- app_assoc, dsel_tree; auto; [|eapply start_element; eauto].
    rewrite Hg1, IHSelects, tapp_app by auto. simpl. now rewrite Nat.add_succ_r.
  - apply proper_cons in HF as [Hx HF]. inversion Hx; subst. simpl.
    rewrite dsel_leaf by (simpl; auto). rewrite IHSelects by auto. apply tapp_cons.
  - apply proper_cons in HF as [Hx HF].
    apply turns_app in Hg as [Hg1 Hg2]; [|eapply selects_length; eauto].
    assert (Proper kids) as Hk by (inversion Hx; subst; auto).
    rewrite events_cons, tree_events_elem. cbn [app]. rewrite <- !app_assoc. cbn [app].
    rewrite (dsel_skip _ _ _ _ (S level)) by auto. rewrite IHSelects1 by auto.
    rewrite (dsel_skip _ _ _ _ level) ; [|simpl|reflexivity].
    2:{ destruct (matches m (ClosingTag c)) eqn:E; auto. apply Hm in E. now simpl in E. }
    rewrite IHSelects2 by auto. rewrite app_length, Nat.add_assoc.
    unfold tapp. simpl. now rewrite <- app_assoc.
Qed.

(** The same for the first failing call. *)
Definition Fails (g : nat -> trace -> trace) (calls : nat) (xs : list tree) (err : stream_error) :=
  exists k, (exists x, nth_error xs k = Some x /\ snd (g (calls + k) (tree_events x, None)) = Some err) /\
  forall j x, j < k -> nth_error xs j = Some x -> snd (g (calls + j) (tree_events x, None)) = None.
Definition Passes (g : nat -> trace -> trace) (calls : nat) (xs : list tree) :=
  forall j x, nth_error xs j = Some x -> snd (g (calls + j) (tree_events x, None)) = None.
Lemma fails_cons g calls x xs err : Fails g calls (x :: xs) err ->
  snd (g calls (tree_events x, None)) = Some err \/
  (snd (g calls (tree_events x, None)) = None /\ Fails g (S calls) xs err).
Proof.
  intros ([|k] & (y & Hy & He) & Hp).
  - left. injection Hy as ->. now rewrite Nat.add_0_r in He.
  - right. split.
    + specialize (Hp 0 x ltac:(lia) eq_refl). now rewrite Nat.add_0_r in Hp.
    + exists k. split.
      * exists y. split; auto. now rewrite Nat.add_succ_r in He.
      * intros j z Hj Hz. specialize (Hp (S j) z ltac:(lia) Hz). now rewrite Nat.add_succ_r in Hp.
Qed.
Lemma fails_app g calls xs1 xs2 err : Fails g calls (xs1 ++ xs2) err ->
  Fails g calls xs1 err \/ (Passes g calls xs1 /\ Fails g (calls + length xs1) xs2 err).
Proof.
  intros (k & (y & Hy & He) & Hp). destruct (le_lt_dec (length xs1) k) as [Hk|Hk].
  - right. rewrite nth_error_app2 in Hy by lia. split.
    + intros j x Hx. apply Hp; [apply Nat.lt_le_trans with (length xs1); auto; apply nth_error_Some; congruence|].
      rewrite nth_error_app1; auto. apply nth_error_Some. congruence.
    + exists (k - length xs1). split.
      * exists y. split; auto. now replace (calls + length xs1 + (k - length xs1)) with (calls + k) by lia.
      * intros j x Hj Hx. specialize (Hp (length xs1 + j) x ltac:(lia)).
        rewrite nth_error_app2 in Hp by lia.
        replace (length xs1 + j - length xs1) with j in Hp by lia. rewrite Nat.add_assoc in Hp. auto.
  - left. rewrite nth_error_app1 in Hy by auto. exists k. split; [eauto|].
    intros j x Hj Hx. apply Hp; auto. rewrite nth_error_app1 by lia. auto.
Qed.
Lemma passes_turns g calls xs : Passes g calls xs -> exists rs, length xs = length rs /\ Turns g calls xs rs.
Proof.
  revert calls. induction xs as [|x xs IH]; intros calls H.
  - exists []. split; auto. intros [] ? ?; discriminate.
  - destruct (IH (S calls)) as (rs & Hl & Ht).
    { intros j y Hy. specialize (H (S j) y Hy). now rewrite Nat.add_succ_r in H. }
    specialize (H 0 x eq_refl). rewrite Nat.add_0_r in H.
    destruct (g calls (tree_events x, None)) as [r t] eqn:E. simpl in H. subst t.
    exists (r :: rs). split; [simpl; auto|]. intros [|k] y s; simpl.
    + intros [= <-] [= <-]. now rewrite Nat.add_0_r.
    + intros Hy Hs. specialize (Ht k y s Hy Hs). now rewrite Nat.add_succ_r.
Qed.

Lemma selects_refill m F xs rs out : Selects m F xs rs out ->
  forall rs', length rs' = length xs -> exists out', Selects m F xs rs' out'.
Proof.
  induction 1; intros rs' Hl.
  - destruct rs'; [|discriminate]. eexists. constructor.
  - destruct rs' as [|r' rs']; [discriminate|]. injection Hl as Hl.
    destruct (IHSelects rs' Hl) as [out' H']. eexists. eapply Sel_match; eauto.
  - destruct (IHSelects rs' Hl) as [out' H']. eexists. eapply Sel_leaf; eauto.
  - rewrite app_length in Hl. 
    destruct (IHSelects1 (firstn (length xs1) rs')) as [o1 Ha].
    { rewrite firstn_length. lia. }
    destruct (IHSelects2 (skipn (length xs1) rs')) as [o2 Hb].
    { rewrite skipn_length. lia. }
    eexists. rewrite <- (firstn_skipn (length xs1) rs'). eapply Sel_inside; eauto.
Qed.
Lemma selects_direct_refill m F xs rs out : SelectsDirect m F xs rs out ->
  forall rs', length rs' = length xs -> exists out', SelectsDirect m F xs rs' out'.
Proof.
  induction 1; intros rs' Hl.
  - destruct rs'; [|discriminate]. eexists. constructor.
  - destruct rs' as [|r' rs']; [discriminate|]. injection Hl as Hl.
    destruct (IHSelectsDirect rs' Hl) as [out' H']. eexists. eapply SelD_match; eauto.
  - destruct (IHSelectsDirect rs' Hl) as [out' H']. eexists. eapply SelD_other; eauto.
Qed.

Lemma tapp_snd x y err : snd x = Some err -> snd (tapp x y) = Some err.
Proof. unfold tapp. now intros ->. Qed.
Lemma tapp_snd_none x y : snd x = None -> snd (tapp x y) = snd y.
Proof. unfold tapp. now intros ->. Qed.

Lemma selects_fails m g t : ElementSelector m -> forall F xs rs out, Selects m F xs rs out ->
  forall level calls rest err, Proper F -> Fails g calls xs err ->
  snd (dsel m g false level calls (events F ++ rest) t) = Some err.
Proof.
  intros Hm F xs rs out H. induction H; intros level calls rest err HF Hg.
  - destruct Hg as (k & (x & Hx & _) & _). destruct k; discriminate.
  - apply proper_cons in HF as [Hx HF]. rewrite events_cons, <- app_assoc, dsel_tree; auto;
      [|eapply start_element; eauto].
    apply fails_cons in Hg as [Hg|[Hg1 Hg2]]; [now apply tapp_snd|].
    rewrite tapp_snd_none by assumption. auto.
  - apply proper_cons in HF as [Hx HF]. inversion Hx; subst. simpl.
    rewrite dsel_leaf by (simpl; auto). rewrite tapp_snd_none by reflexivity. auto.
  - apply proper_cons in HF as [Hx HF].
    assert (Proper kids) as Hk by (inversion Hx; subst; auto).
    rewrite events_cons, tree_events_elem. cbn [app]. rewrite <- !app_assoc. cbn [app].
    rewrite (dsel_skip _ _ _ _ (S level)) by auto. rewrite tapp_snd_none by reflexivity.
    apply fails_app in Hg as [Hg|[Hg1 Hg2]]; [now apply IHSelects1|].
    apply passes_turns in Hg1 as (rs1' & Hl & Ht).
    destruct (selects_refill _ _ _ _ _ H0 rs1' (eq_sym Hl)) as [out1' H0'].
    rewrite (selects_dsel m g t Hm _ _ _ _ H0') by auto. rewrite tapp_snd_none by reflexivity.
    rewrite (dsel_skip _ _ _ _ level) ; [|simpl|reflexivity].
    2:{ destruct (matches m (ClosingTag c)) eqn:E; auto. apply Hm in E. now simpl in E. }
    rewrite tapp_snd_none by reflexivity. auto.
Qed.

(** ** [select_direct] *)

Lemma dsel_deep m g t : forall x, ProperTree x -> forall level calls rest,
  dsel m g true (S level) calls (tree_events x ++ rest) t =
  tapp (tree_events x, None) (dsel m g true (S level) calls rest t).
Proof.
  apply (tree_rect' (fun x => ProperTree x -> forall level calls rest,
    dsel m g true (S level) calls (tree_events x ++ rest) t =
    tapp (tree_events x, None) (dsel m g true (S level) calls rest t))).
  - intros ev Hp level calls rest. inversion Hp; subst. simpl. now apply dsel_leaf.
  - intros t0 a kids c IH Hp level calls rest.
    assert (Proper kids) as Hk by (inversion Hp; subst; auto). clear Hp.
    assert (forall level rest, dsel m g true (S level) calls (events kids ++ rest) t =
      tapp (events kids, None) (dsel m g true (S level) calls rest t)) as Hkids.
    { induction kids as [|x kids IHk]; intros level' rest'; [now rewrite tapp_nil_l|].
      apply proper_cons in Hk as [Hx Hk]. rewrite events_cons, <- app_assoc.
      rewrite IH by (auto; now left). rewrite IHk; auto; [|intros; apply IH; auto; now right].
      apply tapp_app. }
    rewrite tree_events_elem. cbn [app]. rewrite <- app_assoc. cbn [app].
    rewrite (dsel_skip _ _ _ _ (S (S level))), Hkids by reflexivity.
    rewrite (dsel_skip _ _ _ _ (S level)) by reflexivity.
    unfold tapp. simpl. now rewrite <- app_assoc.
Qed.
Lemma dsel_deep_forest m g t F level calls rest : Proper F ->
  dsel m g true (S level) calls (events F ++ rest) t =
  tapp (events F, None) (dsel m g true (S level) calls rest t).
Proof.
  induction F as [|x F IH]; intros H; [now rewrite tapp_nil_l|].
  apply proper_cons in H as [Hx HF]. rewrite events_cons, <- app_assoc, dsel_deep, IH; auto. apply tapp_app.
Qed.
Lemma dsel_other m g t x calls rest : ProperTree x -> matches m (start x) = false ->
  dsel m g true 0 calls (tree_events x ++ rest) t =
  tapp (tree_events x, None) (dsel m g true 0 calls rest t).
Proof.
  intros Hp Hm. inversion Hp; subst.
  - simpl in *. now apply dsel_leaf.
  - rewrite tree_events_elem. cbn [app]. rewrite <- app_assoc. cbn [app].
    rewrite (dsel_skip _ _ _ _ 1), dsel_deep_forest by auto. 
    rewrite (dsel_skip _ _ _ _ 0) by reflexivity. unfold tapp. simpl. now rewrite <- app_assoc.
Qed.

Lemma selects_direct_dsel m g t : ElementSelector m -> forall F xs rs out, SelectsDirect m F xs rs out ->
  forall calls rest, Proper F -> Turns g calls xs rs ->
  dsel m g true 0 calls (events F ++ rest) t =
  tapp (out, None) (dsel m g true 0 (calls + length xs) rest t).
Proof.
  intros Hm F xs rs out H. induction H; intros calls rest HF Hg.
  - now rewrite tapp_nil_l, Nat.add_0_r.
  - apply proper_cons in HF as [Hx HF]. apply turns_cons in Hg as [Hg1 Hg2].
    rewrite events_cons, <- app_assoc, dsel_tree; auto; [|eapply start_element; eauto].
    rewrite Hg1, IHSelectsDirect, tapp_app by auto. simpl. now rewrite Nat.add_succ_r.
  - apply proper_cons in HF as [Hx HF].
    rewrite events_cons, <- app_assoc, dsel_other by auto. rewrite IHSelectsDirect by auto. apply tapp_app.
Qed.
Lemma selects_direct_fails m g t : ElementSelector m -> forall F xs rs out, SelectsDirect m F xs rs out ->
  forall calls rest err, Proper F -> Fails g calls xs err ->
  snd (dsel m g true 0 calls (events F ++ rest) t) = Some err.
Proof.
  intros Hm F xs rs out H. induction H; intros calls rest err HF Hg.
  - destruct Hg as (k & (x & Hx & _) & _). destruct k; discriminate.
  - apply proper_cons in HF as [Hx HF]. rewrite events_cons, <- app_assoc, dsel_tree; auto;
      [|eapply start_element; eauto].
    apply fails_cons in Hg as [Hg|[Hg1 Hg2]]; [now apply tapp_snd|].
    rewrite tapp_snd_none by assumption. auto.
  - apply proper_cons in HF as [Hx HF]. rewrite events_cons, <- app_assoc, dsel_other by auto.
    rewrite tapp_snd_none by reflexivity. auto.
Qed.

(** Both at once *)
Lemma selects_in_trace m g direct F xs rs out : ElementSelector m -> SelectsIn direct m F xs rs out ->
  Proper F -> Turns g 0 xs rs ->
  d_select (length (events F)) m g direct 0 0 (events F) None = (out, None).
Proof.
  intros Hm Hs HF Hg. change (dsel m g direct 0 0 (events F) None = (out, None)).
  rewrite <- (app_nil_r (events F)). destruct direct.
  - rewrite (selects_direct_dsel m g None Hm F xs rs out Hs) by auto. unfold tapp. simpl. now rewrite app_nil_r.
  - rewrite (selects_dsel m g None Hm F xs rs out Hs) by auto. unfold tapp. simpl. now rewrite app_nil_r.
Qed.
Lemma selects_in_fails m g direct F xs rs out err : ElementSelector m -> SelectsIn direct m F xs rs out ->
  Proper F -> Fails g 0 xs err ->
  snd (d_select (length (events F)) m g direct 0 0 (events F) None) = Some err.
Proof.
  intros Hm Hs HF Hg. change (snd (dsel m g direct 0 0 (events F) None) = Some err).
  rewrite <- (app_nil_r (events F)). destruct direct.
  - now apply (selects_direct_fails m g None Hm F xs rs out Hs).
  - now apply (selects_fails m g None Hm F xs rs out Hs).
Qed.

(** ** Selected elements *)

Lemma selects_proper m F xs rs out : Selects m F xs rs out -> Proper F -> Proper xs.
Proof.
  induction 1; intros HF; auto using proper_nil.
  - apply proper_cons in HF as [Hx HF]. apply proper_cons. auto.
  - apply proper_cons in HF as [Hx HF]. auto.
  - apply proper_cons in HF as [Hx HF]. inversion Hx; subst. apply proper_app. auto.
Qed.
Lemma selects_direct_proper m F xs rs out : SelectsDirect m F xs rs out -> Proper F -> Proper xs.
Proof.
  induction 1; intros HF; auto using proper_nil.
  - apply proper_cons in HF as [Hx HF]. apply proper_cons. auto.
  - apply proper_cons in HF as [Hx HF]. auto.
Qed.
Lemma selects_in_proper direct m F xs rs out : SelectsIn direct m F xs rs out -> Proper F -> Proper xs.
Proof. destruct direct; [apply selects_direct_proper|apply selects_proper]. Qed.
Lemma selects_matching m F xs rs out : Selects m F xs rs out ->
  forall x, In x xs -> matches m (start x) = true.
Proof.
  induction 1; intros y Hy; auto; try contradiction.
  - destruct Hy as [<-|Hy]; auto.
  - apply in_app_or in Hy as []; auto.
Qed.
Lemma selects_direct_matching m F xs rs out : SelectsDirect m F xs rs out ->
  forall x, In x xs -> matches m (start x) = true.
Proof. induction 1; intros y Hy; auto; try contradiction. destruct Hy as [<-|Hy]; auto. Qed.
Lemma selects_in_element direct m F xs rs out x : ElementSelector m -> SelectsIn direct m F xs rs out ->
  Proper F -> In x xs -> ProperTree x /\ IsElement x.
Proof.
  intros Hm Hs HF Hx. pose proof (selects_in_proper _ _ _ _ _ _ Hs HF x Hx) as Hp. split; auto.
  eapply start_element; eauto. destruct direct; [eapply selects_direct_matching|eapply selects_matching]; eauto.
Qed.
Lemma selects_in_length direct m F xs rs out : SelectsIn direct m F xs rs out -> length xs = length rs.
Proof. destruct direct; [apply selects_direct_length|apply selects_length]. Qed.

(** ** Results of selections *)

Lemma nth_both {A B} (xs : list A) (rs : list B) k x : length xs = length rs -> nth_error xs k = Some x ->
  exists r, nth_error rs k = Some r.
Proof.
  intros Hl Hx. destruct (nth_error rs k) eqn:E; eauto. apply nth_error_None in E.
  assert (nth_error xs k <> None) as H by congruence. apply nth_error_Some in H. lia.
Qed.

Definition builder_trace (b : nat -> pipeline) : nat -> trace -> trace := fun k => d_pipe (b k).

Lemma builds_turns b xs rs : ElementBuilder b -> (forall k, ValidArgs (b k)) ->
  (forall x, In x xs -> ProperTree x /\ IsElement x) -> Builds_all b xs rs ->
  Turns (builder_trace b) 0 xs rs.
Proof.
  intros Hb Hv He [_ H] k x r Hx Hr. destruct (He x) as [Hp Hi]; [eapply nth_error_In; eauto|].
  destruct (Hb k) as [e' Ht]. eapply gives_trace; eauto. now apply good_element.
Qed.
Lemma failure_fails b xs k err : ElementBuilder b -> (forall k, ValidArgs (b k)) ->
  (forall x, In x xs -> ProperTree x /\ IsElement x) -> First_failure b xs k err ->
  Fails (builder_trace b) 0 xs err.
Proof.
  intros Hb Hv He [(x & Hx & Hg) Hr]. exists k. split.
  - exists x. split; auto. destruct (He x) as [Hp Hi]; [eapply nth_error_In; eauto|].
    destruct (Hb k) as [e' Ht]. eapply gives_trace_error; eauto. now apply good_element.
  - intros j y Hj Hy. destruct (Hr j y Hj Hy) as [r Hgy].
    destruct (He y) as [Hp Hi]; [eapply nth_error_In; eauto|].
    destruct (Hb j) as [e' Ht]. simpl. unfold builder_trace.
    rewrite (gives_trace (tree_events y) (b j) true e' r); auto. now apply good_element.
Qed.

Lemma select_builder_valid direct sel b : ValidArgs [OSelect direct sel b] -> forall k, ValidArgs (b k).
Proof. intros H k. eapply valid_args_sub; eauto; [now left|]. simpl. eauto. Qed.
Lemma once_builder_valid direct sel p : ValidArgs [OSelectOnce direct sel p] -> ValidArgs p.
Proof. intros H. eapply valid_args_sub; eauto; [now left|]. reflexivity. Qed.
Lemma typed_one e o e' : typed_op e o e' -> typed e [o] e'.
Proof. intros H. econstructor; [exact H|constructor]. Qed.
Lemma typed_select e direct sel b : ElementBuilder b -> typed e [OSelect direct sel b] false.
Proof. intros H. apply typed_one. now constructor. Qed.
Lemma typed_select_once e direct sel p e' : typed true p e' -> typed e [OSelectOnce direct sel p] false.
Proof. intros H. apply typed_one. econstructor; eauto. Qed.

Lemma select_result direct m F xs rs out b : ElementSelector m -> Proper F ->
  ElementBuilder b -> ValidArgs [OSelect direct (inl m) b] ->
  SelectsIn direct m F xs rs out -> Builds_all b xs rs ->
  Gives (events F) [OSelect direct (inl m) b] (inl out).
Proof.
  intros Hm HF Hb Hv Hs Hr.
  eapply gives_iff; [apply good_template, well_nested_events, HF|apply typed_select, Hb|exact Hv|].
  simpl. change (fun k => d_pipe (b k)) with (builder_trace b).
  erewrite selects_in_trace; eauto.
  eapply builds_turns; eauto using select_builder_valid. intros x Hx. eapply selects_in_element; eauto.
Qed.
Lemma select_failure direct m F xs rs out b k err : ElementSelector m -> Proper F ->
  ElementBuilder b -> ValidArgs [OSelect direct (inl m) b] ->
  SelectsIn direct m F xs rs out -> First_failure b xs k err ->
  Gives (events F) [OSelect direct (inl m) b] (inr err).
Proof.
  intros Hm HF Hb Hv Hs Hr.
  eapply gives_iff; [apply good_template, well_nested_events, HF|apply typed_select, Hb|exact Hv|].
  simpl. change (fun k => d_pipe (b k)) with (builder_trace b).
  unfold outcome. erewrite selects_in_fails; eauto.
  eapply failure_fails; eauto using select_builder_valid. intros x Hx. eapply selects_in_element; eauto.
Qed.

(** ** Which elements are selected *)

Lemma selection_exists m : forall F,
  exists xs, forall rs, length rs = length xs -> exists out, Selects m F xs rs out.
Proof.
  assert (forall F xs rs out, Selects m F xs rs out ->
    exists xs, forall rs, length rs = length xs -> exists out, Selects m F xs rs out) as Hall.
  { intros F xs rs out H. exists xs. intros rs' Hl. eapply selects_refill; eauto. }
  assert (forall x, (exists xs rs out, Selects m [x] xs rs out)) as Htree.
  { apply (tree_rect' (fun x => exists xs rs out, Selects m [x] xs rs out)).
    - intros ev. destruct (matches m ev) eqn:E.
      + exists [Leaf ev], [[]], ([] ++ []). apply Sel_match; [auto|constructor].
      + exists [], [], [ev]. apply Sel_leaf; [auto|constructor].
    - intros t a kids c IH. destruct (matches m (OpeningTag t a)) eqn:E.
      + exists [Elem t a kids c], [[]], ([] ++ []). apply Sel_match; [auto|constructor].
      + assert (exists xs rs out, Selects m kids xs rs out) as (xs & rs & out & H).
        { clear E. induction kids as [|x kids IHk].
          - exists [], [], []. constructor.
          - destruct (IHk ltac:(intros; apply IH; now right)) as (xs2 & rs2 & o2 & H2).
            destruct (IH x (or_introl eq_refl)) as (xs1 & rs1 & o1 & H1).
            inversion H1; subst.
            + do 3 eexists. eapply (Sel_match m _ _ _ []); eauto.
            + do 3 eexists. eapply Sel_leaf; eauto.
            + do 3 eexists. eapply Sel_inside; eauto. }
        do 3 eexists. eapply Sel_inside; eauto. constructor. }
  induction F as [|x F [xs IH]].
  - exists []. intros [|] H; [|discriminate]. eexists. constructor.
  - destruct (IH (repeat [] (length xs))) as [out H2]; [apply repeat_length|].
    destruct (Htree x) as (xs1 & rs1 & o1 & H1). inversion H1; subst.
    + eapply Hall. eapply (Sel_match m x F xs []); eauto.
    + eapply Hall. eapply Sel_leaf; eauto.
    + eapply Hall. eapply Sel_inside; eauto.
Qed.
Lemma selection_direct_exists m : forall F,
  exists xs, forall rs, length rs = length xs -> exists out, SelectsDirect m F xs rs out.
Proof.
  induction F as [|x F [xs IH]].
  - exists []. intros [|] H; [|discriminate]. eexists. constructor.
  - destruct (matches m (start x)) eqn:E.
    + exists (x :: xs). intros [|r rs] Hl; [discriminate|]. injection Hl as Hl.
      destruct (IH rs Hl) as [out H]. eexists. eapply SelD_match; eauto.
    + exists xs. intros rs Hl. destruct (IH rs Hl) as [out H]. eexists. eapply SelD_other; eauto.
Qed.
Lemma selection_in_exists direct m F :
  exists xs, forall rs, length rs = length xs -> exists out, SelectsIn direct m F xs rs out.
Proof. destruct direct; [apply selection_direct_exists|apply selection_exists]. Qed.

Lemma selection_unique m F xs rs out : Selects m F xs rs out ->
  forall xs' rs' out', Selects m F xs' rs' out' -> xs' = xs.
Proof.
  induction 1; intros xs' rs' out' H'; inversion H'; subst; auto; simpl in *; try congruence.
  - f_equal. eauto.
  - eauto.
  - f_equal; eauto.
Qed.
Lemma selection_direct_unique m F xs rs out : SelectsDirect m F xs rs out ->
  forall xs' rs' out', SelectsDirect m F xs' rs' out' -> xs' = xs.
Proof.
  induction 1; intros xs' rs' out' H'; inversion H'; subst; auto; simpl in *; try congruence.
  - f_equal. eauto.
  - eauto.
Qed.
Lemma selection_in_unique direct m F xs rs out xs' rs' out' :
  SelectsIn direct m F xs rs out -> SelectsIn direct m F xs' rs' out' -> xs' = xs.
Proof. destruct direct; intros H H'; [eapply selection_direct_unique|eapply selection_unique]; eauto. Qed.

(** outermost matching elements *)
Lemma at_cons_inv x F path y : At (x :: F) path y ->
  At [x] path y \/ At F path y.
Proof.
  intros H. inversion H; subst.
  - destruct H0 as [->|H0]; [left; apply At_top; now left|right; now apply At_top].
  - destruct H0 as [->|H0]; [left; apply At_in; auto; now left|right; now apply At_in].
Qed.
Lemma at_weaken F G path y : At F path y -> (forall x, In x F -> In x G) -> At G path y.
Proof. intros H Hi. inversion H; subst; [apply At_top; auto|apply At_in; auto]. Qed.
Lemma at_leaf ev path y : At [Leaf ev] path y -> path = [] /\ y = Leaf ev.
Proof.
  intros H. inversion H; subst.
  - destruct H0 as [<-|[]]. auto.
  - destruct H0 as [H0|[]]. discriminate.
Qed.
Lemma at_elem t a kids c path y : At [Elem t a kids c] path y ->
  (path = [] /\ y = Elem t a kids c) \/
  exists path', path = Elem t a kids c :: path' /\ At kids path' y.
Proof.
  intros H. inversion H; subst.
  - destruct H0 as [<-|[]]. auto.
  - destruct H0 as [H0|[]]. injection H0 as <- <- <- <-. eauto.
Qed.

Lemma selected_iff m F xs rs out : Selects m F xs rs out -> forall x,
  In x xs <-> matches m (start x) = true /\
              exists path, At F path x /\ forall y, In y path -> matches m (start y) = false.
Proof.
  induction 1 as [|x F xs r rs out Hx H IH|ev F xs rs out Hx H IH
                 |t a kids c F xs1 rs1 out1 xs2 rs2 out2 Hx H1 IH1 H2 IH2]; intros y.
  - split; [intros []|]. intros (_ & path & Ha & _). inversion Ha; contradiction.
  - simpl. rewrite IH. split.
    + intros [<-|(Hm & path & Ha & Hp)].
      * split; auto. exists []. split; [apply At_top; now left|intros ? []].
      * split; auto. exists path. split; auto. eapply at_weaken; eauto. intros; now right.
    + intros (Hm & path & Ha & Hp). apply at_cons_inv in Ha as [Ha|Ha]; [|right; eauto].
      left. inversion Ha; subst.
      * destruct H0 as [->|[]]. reflexivity.
      * destruct H0 as [->|[]]. rewrite (Hp (Elem t a kids c)) in Hx by (now left). discriminate.
  - rewrite IH. split.
    + intros (Hm & path & Ha & Hp). split; auto. exists path. split; auto.
      eapply at_weaken; eauto. intros; now right.
    + intros (Hm & path & Ha & Hp). split; auto. apply at_cons_inv in Ha as [Ha|Ha]; [|eauto].
      apply at_leaf in Ha as [-> ->]. simpl in Hm. congruence.
  - rewrite in_app_iff, IH1, IH2. split.
    + intros [(Hm & path & Ha & Hp)|(Hm & path & Ha & Hp)]; (split; [exact Hm|]).
      * exists (Elem t a kids c :: path). split; [apply At_in; auto; now left|].
        intros z [<-|Hz]; auto.
      * exists path. split; auto. eapply at_weaken; eauto. intros; now right.
    + intros (Hm & path & Ha & Hp). apply at_cons_inv in Ha as [Ha|Ha]; [|right; eauto].
      apply at_elem in Ha as [[-> ->]|(path' & -> & Ha)].
      * simpl in Hm. congruence.
      * left. split; auto. exists path'. split; auto. intros z Hz. apply Hp. now right.
Qed.
Lemma selected_direct_iff m F xs rs out : SelectsDirect m F xs rs out -> 
  xs = filter (fun x => matches m (start x) = true) F.
Proof.
  induction 1; auto; rewrite filter_cons; destruct (decide _); congruence.
Qed.

(** ** Nothing changes *)

Lemma selects_same m F xs rs out : Selects m F xs rs out -> Selects m F xs (map tree_events xs) (events F).
Proof.
  induction 1; simpl.
  - constructor.
  - now apply Sel_match.
  - now apply Sel_leaf.
  - rewrite map_app. replace (_ ++ events F) with (events kids ++ ClosingTag c :: events F).
    + now apply Sel_inside.
    + unfold events. now rewrite <- app_assoc.
Qed.
Lemma selects_direct_same m F xs rs out : SelectsDirect m F xs rs out ->
  SelectsDirect m F xs (map tree_events xs) (events F).
Proof.
  induction 1; simpl.
  - constructor.
  - now apply SelD_match.
  - now apply SelD_other.
Qed.
Lemma selection_same direct m F : exists xs, SelectsIn direct m F xs (map tree_events xs) (events F).
Proof.
  destruct (selection_in_exists direct m F) as [xs H].
  destruct (H (repeat [] (length xs))) as [out Hs]; [apply repeat_length|]. exists xs.
  destruct direct; [eapply selects_direct_same|eapply selects_same]; eauto.
Qed.

Lemma select_unchanged direct m F b : ElementSelector m -> Proper F ->
  ElementBuilder b -> ValidArgs [OSelect direct (inl m) b] ->
  (forall k x, ProperTree x -> matches m (start x) = true -> Gives (tree_events x) (b k) (inl (tree_events x))) ->
  Gives (events F) [OSelect direct (inl m) b] (inl (events F)).
Proof.
  intros Hm HF Hb Hv Hid. destruct (selection_same direct m F) as [xs Hs].
  eapply select_result; eauto. split; [now rewrite map_length|].
  intros k x r Hx Hr. rewrite nth_error_map, Hx in Hr. injection Hr as <-.
  apply nth_error_In in Hx. apply Hid.
  - eapply selects_in_element; eauto.
  - destruct direct; [eapply selects_direct_matching|eapply selects_matching]; eauto.
Qed.

Lemma dsel_none m g direct t : forall evs st st' level calls, nest st evs = Some st' -> level = length st ->
  (forall ev, In ev evs -> matches m ev = false) -> dsel m g direct level calls evs t = (evs, t).
Proof.
  induction evs as [|ev evs IH]; intros st st' level calls Hn Hl Hm; [reflexivity|].
  simpl in Hn. destruct (nest1 st ev) as [st1|] eqn:E; [|discriminate].
  apply nest1_adjust in E. rewrite <- Hl in E.
  rewrite (dsel_skip _ _ _ _ (length st1)); auto.
  - erewrite IH; eauto. intros; apply Hm; now right.
  - rewrite Hm by (now left). apply andb_false_r.
Qed.
Lemma select_no_match direct m evs b : WellNested evs ->
  ElementBuilder b -> ValidArgs [OSelect direct (inl m) b] ->
  (forall ev, In ev evs -> matches m ev = false) ->
  Gives evs [OSelect direct (inl m) b] (inl evs).
Proof.
  intros Hw Hb Hv Hn. pose proof (proj1 (well_nested_iff _) Hw) as Hnest.
  eapply gives_iff; [apply good_template, Hw|apply typed_select, Hb|exact Hv|].
  change (inl evs = outcome (dsel m (fun k => d_pipe (b k)) direct 0 0 evs None)).
  erewrite dsel_none; eauto.
Qed.

(** ** [select_once] *)

Lemma once_skip m g direct t : forall pre rest st st' level, nest st (pre ++ rest) = Some st' -> level = length st ->
  (forall ev, In ev pre -> matches m ev = false) ->
  exists level', d_select_once m g direct level (pre ++ rest) t =
                 tapp (pre, None) (d_select_once m g direct level' rest t) /\
                 (rest = [] \/ nest st pre <> None).
Proof.
  induction pre as [|ev pre IH]; intros rest st st' level Hn Hl Hm; simpl.
  - exists level. rewrite tapp_nil_l. split; [reflexivity|]. right. discriminate.
  - simpl in Hn. destruct (nest1 st ev) as [st1|] eqn:E; [|discriminate].
    pose proof (nest1_adjust _ _ _ E) as Ha. rewrite <- Hl in Ha.
    rewrite Hm by (now left). rewrite andb_false_r, Ha.
    destruct (IH rest st1 st' (length st1) Hn eq_refl) as (level' & -> & Hr); [intros; apply Hm; now right|].
    exists level'. split; [apply tapp_cons|]. destruct Hr as [->|Hr]; auto.
Qed.
Lemma once_tree m g direct level x rest t :
  include direct level = true -> matches m (start x) = true -> ProperTree x -> IsElement x ->
  d_select_once m g direct level (tree_events x ++ rest) t =
  tapp (g (tree_events x, None)) (rest, t).
Proof.
  intros Hi Hm Hp He. destruct (single_tree x rest t Hp He) as (tl & -> & Hs).
  simpl. now rewrite Hi, Hm, Hs.
Qed.

Lemma once_trace m g evs pre x post : nest [] evs = Some [] -> evs = pre ++ tree_events x ++ post ->
  (forall ev, In ev pre -> matches m ev = false) -> matches m (start x) = true ->
  ProperTree x -> IsElement x ->
  d_select_once m g false 0 evs None = tapp (pre, None) (tapp (g (tree_events x, None)) (post, None)).
Proof.
  intros Hn -> Hpre Hx Hp He.
  destruct (once_skip m g false None pre (tree_events x ++ post) [] [] 0 Hn eq_refl Hpre) as (l & -> & _).
  now rewrite once_tree.
Qed.
Lemma once_none_trace m g direct evs t st : nest [] evs = Some st ->
  (forall ev, In ev evs -> matches m ev = false) -> d_select_once m g direct 0 evs t = (evs, t).
Proof.
  intros Hn Hm. rewrite <- (app_nil_r evs) in Hn |- *.
  destruct (once_skip m g direct t evs [] [] st 0 Hn eq_refl Hm) as (l & -> & _). reflexivity.
Qed.

Lemma once_deep m g t : forall x, ProperTree x -> forall level rest,
  d_select_once m g true (S level) (tree_events x ++ rest) t =
  tapp (tree_events x, None) (d_select_once m g true (S level) rest t).
Proof.
  apply (tree_rect' (fun x => ProperTree x -> forall level rest,
    d_select_once m g true (S level) (tree_events x ++ rest) t =
    tapp (tree_events x, None) (d_select_once m g true (S level) rest t))).
  - intros ev Hp level rest. inversion Hp; subst. simpl. now rewrite adjust_leaf.
  - intros t0 a kids c IH Hp level rest.
    assert (Proper kids) as Hk by (inversion Hp; subst; auto). clear Hp.
    assert (forall level rest, d_select_once m g true (S level) (events kids ++ rest) t =
      tapp (events kids, None) (d_select_once m g true (S level) rest t)) as Hkids.
    { induction kids as [|x kids IHk]; intros level' rest'; [now rewrite tapp_nil_l|].
      apply proper_cons in Hk as [Hx Hk]. rewrite events_cons, <- app_assoc.
      rewrite IH by (auto; now left). rewrite IHk; auto; [|intros; apply IH; auto; now right].
      apply tapp_app. }
    rewrite tree_events_elem. cbn [app]. rewrite <- app_assoc. cbn [app].
    cbn [d_select_once include Nat.eqb andb adjust]. rewrite Hkids.
    cbn [d_select_once include Nat.eqb andb adjust].
    unfold tapp. simpl. now rewrite <- app_assoc.
Qed.
Lemma once_deep_forest m g t F level rest : Proper F ->
  d_select_once m g true (S level) (events F ++ rest) t =
  tapp (events F, None) (d_select_once m g true (S level) rest t).
Proof.
  induction F as [|x F IH]; intros H; [now rewrite tapp_nil_l|].
  apply proper_cons in H as [Hx HF]. rewrite events_cons, <- app_assoc, once_deep, IH; auto. apply tapp_app.
Qed.
Lemma once_other m g t x rest : ProperTree x -> matches m (start x) = false ->
  d_select_once m g true 0 (tree_events x ++ rest) t =
  tapp (tree_events x, None) (d_select_once m g true 0 rest t).
Proof.
  intros Hp Hm. inversion Hp; subst.
  - simpl in *. now rewrite Hm, adjust_leaf.
  - rewrite tree_events_elem. cbn [app]. rewrite <- app_assoc. cbn [app]. simpl in Hm.
    cbn [d_select_once include Nat.eqb andb adjust]. rewrite Hm, once_deep_forest by auto.
    cbn [d_select_once include Nat.eqb andb adjust].
    unfold tapp. simpl. now rewrite <- app_assoc.
Qed.
Lemma once_direct_skip m g t F rest : Proper F -> (forall x, In x F -> matches m (start x) = false) ->
  d_select_once m g true 0 (events F ++ rest) t =
  tapp (events F, None) (d_select_once m g true 0 rest t).
Proof.
  induction F as [|x F IH]; intros HF Hm; [now rewrite tapp_nil_l|].
  apply proper_cons in HF as [Hx HF]. rewrite events_cons, <- app_assoc, once_other by (auto; apply Hm; now left).
  rewrite IH; auto; [apply tapp_app|]. intros; apply Hm; now right.
Qed.
Lemma once_direct_trace m g F1 x F2 : Proper F1 -> ProperTree x -> IsElement x ->
  (forall y, In y F1 -> matches m (start y) = false) -> matches m (start x) = true ->
  d_select_once m g true 0 (events (F1 ++ x :: F2)) None =
  tapp (events F1, None) (tapp (g (tree_events x, None)) (events F2, None)).
Proof.
  intros H1 Hx He Hn Hm. rewrite events_app, events_cons, once_direct_skip, once_tree; auto.
Qed.
Lemma once_direct_none_trace m g F : Proper F -> (forall y, In y F -> matches m (start y) = false) ->
  d_select_once m g true 0 (events F) None = (events F, None).
Proof.
  intros HF Hn. rewrite <- (app_nil_r (events F)). rewrite once_direct_skip by auto.
  unfold tapp. simpl. now rewrite app_nil_r.
Qed.

Lemma around_outcome pre y post :
  outcome (tapp (pre, None) (tapp y (post, None))) = around pre (outcome y) post.
Proof. destruct y as [evs [e|]]; reflexivity. Qed.

Lemma once_result m evs pre x post p e r : WellNested evs -> typed true p e ->
  ValidArgs [OSelectOnce false (inl m) p] ->
  evs = pre ++ tree_events x ++ post -> ProperTree x -> IsElement x ->
  (forall ev, In ev pre -> matches m ev = false) -> matches m (start x) = true ->
  Gives (tree_events x) p r ->
  Gives evs [OSelectOnce false (inl m) p] (around pre r post).
Proof.
  intros Hw Ht Hv Hevs Hp He Hpre Hx Hr. pose proof (proj1 (well_nested_iff _) Hw) as Hnest.
  eapply gives_iff; [apply good_template, Hw|eapply typed_select_once, Ht|exact Hv|].
  change (around pre r post = outcome (d_select_once m (d_pipe p) false 0 evs None)).
  rewrite (once_trace m (d_pipe p) evs pre x post) by auto. rewrite around_outcome. f_equal.
  eapply gives_iff in Hr; [exact Hr|now apply good_element|eauto|now apply once_builder_valid in Hv].
Qed.
Lemma once_no_match direct m evs p e : WellNested evs -> typed true p e ->
  ValidArgs [OSelectOnce direct (inl m) p] ->
  (forall ev, In ev evs -> matches m ev = false) ->
  Gives evs [OSelectOnce direct (inl m) p] (inl evs).
Proof.
  intros Hw Ht Hv Hn. pose proof (proj1 (well_nested_iff _) Hw) as Hnest.
  eapply gives_iff; [apply good_template, Hw|eapply typed_select_once, Ht|exact Hv|].
  change (inl evs = outcome (d_select_once m (d_pipe p) direct 0 evs None)).
  erewrite once_none_trace; eauto.
Qed.
Lemma once_direct_result m F1 x F2 p e r : Proper (F1 ++ x :: F2) -> IsElement x -> typed true p e ->
  ValidArgs [OSelectOnce true (inl m) p] ->
  (forall y, In y F1 -> matches m (start y) = false) -> matches m (start x) = true ->
  Gives (tree_events x) p r ->
  Gives (events (F1 ++ x :: F2)) [OSelectOnce true (inl m) p] (around (events F1) r (events F2)).
Proof.
  intros HF He Ht Hv Hpre Hx Hr. pose proof (well_nested_events _ HF) as Hw.
  apply proper_app in HF as [HF1 HF2]. apply proper_cons in HF2 as [Hp HF2].
  eapply gives_iff; [apply good_template, Hw|eapply typed_select_once, Ht|exact Hv|].
  change (around (events F1) r (events F2) = outcome (d_select_once m (d_pipe p) true 0 (events (F1 ++ x :: F2)) None)).
  rewrite once_direct_trace by auto. rewrite around_outcome. f_equal.
  eapply gives_iff in Hr; [exact Hr|now apply good_element|eauto|now apply once_builder_valid in Hv].
Qed.
Lemma once_direct_no_match m F p e : Proper F -> typed true p e ->
  ValidArgs [OSelectOnce true (inl m) p] ->
  (forall y, In y F -> matches m (start y) = false) ->
  Gives (events F) [OSelectOnce true (inl m) p] (inl (events F)).
Proof.
  intros HF Ht Hv Hn.
  eapply gives_iff; [apply good_template, well_nested_events, HF|eapply typed_select_once, Ht|exact Hv|].
  change (inl (events F) = outcome (d_select_once m (d_pipe p) true 0 (events F) None)).
  now rewrite once_direct_none_trace.
Qed.

(** The first match exists. *)
Lemma first_match m : ElementSelector m -> forall F,
  (forall ev, In ev (events F) -> matches m ev = false) \/
  exists pre x post path, events F = pre ++ tree_events x ++ post /\ At F path x /\
    (forall ev, In ev pre -> matches m ev = false) /\ matches m (start x) = true.
Proof.
  intros Hm.
  assert (forall x, (forall ev, In ev (tree_events x) -> matches m ev = false) \/
    exists pre y post path, tree_events x = pre ++ tree_events y ++ post /\ At [x] path y /\
    (forall ev, In ev pre -> matches m ev = false) /\ matches m (start y) = true) as Htree.
  2:{ induction F as [|x F IH]; [left; intros ev []|]. rewrite events_cons.
      destruct (Htree x) as [Hx|(pre & y & post & path & E & Ha & Hp & Hy)].
      - destruct IH as [HF|(pre & y & post & path & E & Ha & Hp & Hy)].
        + left. intros ev Hev. apply in_app_or in Hev as []; auto.
        + right. exists (tree_events x ++ pre), y, post, path. repeat split; auto.
          * now rewrite E, <- app_assoc.
          * eapply at_weaken; eauto. intros; now right.
          * intros ev Hev. apply in_app_or in Hev as []; auto.
      - right. exists pre, y, (post ++ events F), path. repeat split; auto.
        + rewrite E. now rewrite <- !app_assoc.
        + eapply at_weaken; eauto. intros z [->|[]]. now left. }
  apply (tree_rect' (fun x => (forall ev, In ev (tree_events x) -> matches m ev = false) \/
    exists pre y post path, tree_events x = pre ++ tree_events y ++ post /\ At [x] path y /\
    (forall ev, In ev pre -> matches m ev = false) /\ matches m (start y) = true)).
  - intros ev. destruct (matches m ev) eqn:E.
    + right. exists [], (Leaf ev), [], []. repeat split; auto; [apply At_top; now left|intros ? []].
    + left. intros ev' [<-|[]]. auto.
  - intros t a kids c IH. destruct (matches m (OpeningTag t a)) eqn:E.
    { right. exists [], (Elem t a kids c), [], []. rewrite app_nil_r. repeat split; auto; [apply At_top; now left|intros ? []]. }
    assert ((forall ev, In ev (events kids) -> matches m ev = false) \/
      exists pre x post path, events kids = pre ++ tree_events x ++ post /\ At kids path x /\
      (forall ev, In ev pre -> matches m ev = false) /\ matches m (start x) = true) as Hkids.
    { clear E. induction kids as [|x F IHF]; [left; intros ev []|]. rewrite events_cons.
      destruct (IH x (or_introl eq_refl)) as [Hx|(pre & y & post & path & E & Ha & Hp & Hy)].
      - destruct IHF as [HF|(pre & y & post & path & E & Ha & Hp & Hy)]; [intros; apply IH; now right|..].
        + left. intros ev Hev. apply in_app_or in Hev as []; auto.
        + right. exists (tree_events x ++ pre), y, post, path. repeat split; auto.
          * now rewrite E, <- app_assoc.
          * eapply at_weaken; eauto. intros; now right.
          * intros ev Hev. apply in_app_or in Hev as []; auto.
      - right. exists pre, y, (post ++ events F), path. repeat split; auto.
        + rewrite E. now rewrite <- !app_assoc.
        + eapply at_weaken; eauto. intros z [->|[]]. now left. }
    rewrite tree_events_elem. destruct Hkids as [Hk|(pre & y & post & path & Ek & Ha & Hp & Hy)].
    + left. intros ev [<-|Hev]; auto. apply in_app_or in Hev as [Hev|[<-|[]]]; auto.
      destruct (matches m (ClosingTag c)) eqn:Ec; auto. apply Hm in Ec. now simpl in Ec.
    + right. exists (OpeningTag t a :: pre), y, (post ++ [ClosingTag c]), (Elem t a kids c :: path).
      repeat split; auto.
      * rewrite Ek. simpl. now rewrite <- !app_assoc.
      * apply At_in; auto. now left.
      * intros ev [<-|Hev]; auto.
Qed.
Lemma first_top_match m F : (forall x, In x F -> matches m (start x) = false) \/
  exists F1 x F2, F = F1 ++ x :: F2 /\ (forall y, In y F1 -> matches m (start y) = false) /\
    matches m (start x) = true.
Proof.
  induction F as [|x F IH]; [left; intros ? []|]. destruct (matches m (start x)) eqn:E.
  - right. exists [], x, F. repeat split; auto. intros ? [].
  - destruct IH as [H|(F1 & y & F2 & -> & H1 & H2)].
    + left. intros y [<-|Hy]; auto.
    + right. exists (x :: F1), y, F2. repeat split; auto. intros z [<-|Hz]; auto.
Qed.

(** ** Calls *)

Lemma select_calls direct m F xs b b' : ElementSelector m -> Proper F ->
  ElementBuilder b -> ElementBuilder b' ->
  ValidArgs [OSelect direct (inl m) b] -> ValidArgs [OSelect direct (inl m) b'] ->
  (exists rs out, SelectsIn direct m F xs rs out) ->
  (forall k, k < length xs -> b k = b' k) ->
  forall r, Gives (events F) [OSelect direct (inl m) b] r -> Gives (events F) [OSelect direct (inl m) b'] r.
Proof.
  intros Hm HF Hb Hb' Hv Hv' (rs0 & out0 & Hs) Heq r Hr.
  assert (forall k, ValidArgs (b k)) as Hvb by (eapply select_builder_valid; eauto).
  assert (forall k x, nth_error xs k = Some x -> exists res, Gives (tree_events x) (b k) res) as Htot.
  { intros k x Hx. destruct (Hb k) as [e Ht].
    destruct (selects_in_element direct m F xs rs0 out0 x Hm Hs HF) as [Hp He]; [eapply nth_error_In; eauto|].
    eexists. eapply gives_iff; eauto. now apply good_element. }
  assert ((exists rs, Builds_all b xs rs) \/ exists k err, First_failure b xs k err) as Hcase.
  { clear Hr Hs. revert b Heq Hb Hv Hvb Htot. induction xs as [|x xs IH] using rev_ind; intros b Heq Hb Hv Hvb Htot.
    - left. exists []. split; auto. intros [] ? ?; discriminate.
    - destruct (IH b) as [(rs & Hl & Hrs)|(k & err & (y & Hy & He) & Hk)]; auto.
      + intros k Hk. apply Heq. rewrite app_length. lia.
      + intros k y Hy. apply Htot. rewrite nth_error_app1; auto. apply nth_error_Some. congruence.
      + destruct (Htot (length xs) x) as [[r0|err] Hr0].
        { rewrite nth_error_app2, Nat.sub_diag by lia. reflexivity. }
        * left. exists (rs ++ [r0]). split; [rewrite !app_length; simpl; lia|].
          intros k y r' Hy Hr'. destruct (Nat.lt_trichotomy k (length xs)) as [Hk|[->|Hk]].
          -- rewrite nth_error_app1 in Hy, Hr' by lia. eauto.
          -- rewrite nth_error_app2, Nat.sub_diag in Hy by lia.
             rewrite nth_error_app2, <- Hl, Nat.sub_diag in Hr' by lia.
             injection Hy as <-. injection Hr' as <-. auto.
          -- rewrite nth_error_app2 in Hy by lia. destruct (k - length xs) as [|[]] eqn:Ek; [lia|discriminate..].
        * right. exists (length xs), err. split.
          -- exists x. rewrite nth_error_app2, Nat.sub_diag by lia. auto.
          -- intros j y Hj Hy. rewrite nth_error_app1 in Hy by auto.
             destruct (nth_both xs rs j y Hl Hy) as [r' Hr']. eauto.
      + right. exists k, err. split.
        * exists y. split; auto. rewrite nth_error_app1; auto. apply nth_error_Some. congruence.
        * intros j z Hj Hz. apply Hk with (x := z); auto. rewrite nth_error_app1 in Hz; auto.
          assert (nth_error xs k <> None) as H by congruence. apply nth_error_Some in H. lia. }
  destruct Hcase as [(rs & Hl & Hrs)|(k & err & (x & Hx & He) & Hk)].
  - assert (exists out, SelectsIn direct m F xs rs out) as [out Hs'].
    { destruct direct; [eapply selects_direct_refill|eapply selects_refill]; eauto. }
    assert (Builds_all b' xs rs) as Hb2.
    { split; auto. intros k x r' Hx Hr'. rewrite <- Heq; eauto. apply nth_error_Some. congruence. }
    rewrite (gives_det _ _ _ _ Hr (select_result direct m F xs rs out b Hm HF Hb Hv Hs' (conj Hl Hrs))).
    eapply select_result; eauto.
  - rewrite (gives_det _ _ _ _ Hr (select_failure direct m F xs rs0 out0 b k err Hm HF Hb Hv Hs
               (conj (ex_intro _ x (conj Hx He)) Hk))).
    assert (k < length xs) as Hlt by (apply nth_error_Some; congruence).
    eapply select_failure; eauto. split.
    + exists x. split; [exact Hx|]. rewrite <- (Heq k) by lia. exact He. 
    + intros j y Hj Hy. rewrite <- Heq by lia. eauto.
Qed.
