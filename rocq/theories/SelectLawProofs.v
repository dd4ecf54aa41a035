(** Rearranging selections. *)
From Coq Require Import String ZArith List Bool Lia.
From stdpp Require Import gmap.
From Verif Require Import Text Event Input Parse Selector Machine Template.
From Verif Require Import SpecText SpecAttr SpecParse SpecTree SpecTransform SpecOps SpecLaws SpecSelectLaws.
From Verif Require Import TextProofs AttrProofs AttrProofs2 Trace TraceProofs PipelineProofs TreeProofs.
From Verif Require Import ErrorProofs SelectionProofs OpProofs LawProofs LawProofs2 LawProofs3.
Local Open Scope nat_scope.

(** ** The first match *)

Lemma matched_single m ev evs st el rest : ElementSelector m -> matches m ev = true ->
  nest st (ev :: evs) = Some [] -> d_single ev evs None = (el, rest) ->
  el = (fst el, None) /\ fst el ++ rest = ev :: evs /\ nest st rest = Some [].
Proof.
  intros Hm E Hn Ed. specialize (Hm ev E).
  pose proof (single_good st ev evs [] None Hn (fun _ => eq_refl)) as Hs. rewrite Ed in Hs.
  destruct Hs as [_ [(E1 & E2 & E3)|E2]].
  - destruct el as [el t]. simpl in *. subst. auto.
  - exfalso. apply E2. unfold d_single in Ed. destruct ev; simpl in Hm; try (now destruct Hm);
      try (injection Ed as <- <-; reflexivity).
    destruct (d_until tag 0 evs) as [[x y]|] eqn:Eu; injection Ed as <- <-; reflexivity.
Qed.

Lemma dsel_same m g d : ElementSelector m -> (forall k x, 0 < k -> g k x = x) ->
  forall n evs level st calls, length evs <= n -> 0 < calls -> nest st evs = Some [] -> level = length st ->
  dsel m g d level calls evs None = (evs, None).
Proof.
  intros Hm Hg. induction n as [|n IH]; intros [|ev evs] level st calls Hl Hc Hn Hs; try reflexivity;
    [simpl in Hl; lia|]. simpl in Hl.
  destruct (include d level) eqn:Ei; [destruct (matches m ev) eqn:E|].
  - rewrite dsel_match by auto. pose proof (single_rest ev evs None) as Hr.
    destruct (d_single ev evs None) as [el rest] eqn:Ed.
    destruct (matched_single _ _ _ _ _ _ Hm E Hn Ed) as (E1 & E2 & E3). simpl in Hr.
    rewrite Hg by lia. rewrite (IH rest level st (S calls)) by (auto; lia).
    rewrite E1. unfold tapp. simpl. now rewrite E2.
  - simpl in Hn. destruct (nest1 st ev) as [st1|] eqn:En; [|discriminate].
    pose proof (nest1_adjust _ _ _ En) as Ha. rewrite <- Hs in Ha.
    erewrite dsel_skip; [|now rewrite Ei, E|exact Ha].
    rewrite (IH evs (length st1) st1 calls) by (auto; lia). reflexivity.
  - simpl in Hn. destruct (nest1 st ev) as [st1|] eqn:En; [|discriminate].
    pose proof (nest1_adjust _ _ _ En) as Ha. rewrite <- Hs in Ha.
    erewrite dsel_skip; [|now rewrite Ei|exact Ha].
    rewrite (IH evs (length st1) st1 calls) by (auto; lia). reflexivity.
Qed.
Lemma once_dsel m g d : ElementSelector m -> (forall k x, 0 < k -> g k x = x) ->
  forall evs level st, nest st evs = Some [] -> level = length st ->
  d_select_once m (g 0) d level evs None = dsel m g d level 0 evs None.
Proof.
  intros Hm Hg. induction evs as [|ev evs IH]; intros level st Hn Hs; [reflexivity|].
  destruct (include d level && matches m ev) eqn:Em.
  - apply andb_true_iff in Em as Em'. destruct Em' as [Ei E]. simpl. rewrite Em.
    rewrite dsel_match by auto. destruct (d_single ev evs None) as [el rest] eqn:Ed.
    destruct (matched_single _ _ _ _ _ _ Hm E Hn Ed) as (E1 & E2 & E3).
    now rewrite (dsel_same m g d Hm Hg (length rest) rest level st 1) by (auto; lia).
  - simpl. rewrite Em. simpl in Hn. destruct (nest1 st ev) as [st1|] eqn:En; [|discriminate].
    pose proof (nest1_adjust _ _ _ En) as Ha. rewrite <- Hs in Ha.
    rewrite (dsel_skip _ _ _ _ _ _ _ _ _ Em Ha), Ha. f_equal. now apply (IH _ st1).
Qed.

Definition first_only (p : pipeline) : nat -> pipeline := fun k => match k with O => p | S _ => [] end.
Lemma once_select e d m p e' : ElementSelector m -> typed true p e' -> ValidArgs p ->
  Equal e [OSelectOnce d (inl m) p] [OSelect d (inl m) (first_only p)].
Proof.
  intros Hm Ht Hv. apply equal_weaken. eapply (equal_of _ _ _ false false).
  - eapply typed_select_once; eauto.
  - apply typed_select. intros [|k]; simpl; eauto. exists true. constructor.
  - apply valid_args_wrap; auto. intros q ->. exact Hv.
  - apply valid_args_wrap; auto. intros q [[|k] ->]; [exact Hv|apply empty_valid].
  - intros evs Hg. unfold Good in Hg. simpl in Hg. f_equal.
    exact (once_dsel m (fun k => d_pipe (first_only p k)) d Hm (fun k x Hk => ltac:(destruct k; [lia|reflexivity]))
             evs 0 [] Hg eq_refl).
Qed.

(** ** Successful selections *)

Lemma builds_case b xs : ElementBuilder b -> (forall k, ValidArgs (b k)) ->
  (forall x, In x xs -> ProperTree x /\ IsElement x) ->
  (exists rs, Builds_all b xs rs) \/ exists k err, First_failure b xs k err.
Proof.
  intros Hb Hv. induction xs as [|x xs IH] using rev_ind; intros Hx.
  - left. exists []. split; auto. intros [] ? ?; discriminate.
  - destruct IH as [(rs & Hl & Hrs)|(k & err & (y & Hy & He) & Hk)].
    { intros y Hy. apply Hx, in_or_app. now left. }
    + destruct (Hb (length xs)) as [e Ht]. destruct (Hx x) as [Hp Hi]; [apply in_or_app; right; now left|].
      assert (exists res, Gives (tree_events x) (b (length xs)) res) as [[r0|err] Hr0].
      { eexists. eapply gives_iff; eauto. now apply good_element. }
      * left. exists (rs ++ [r0]). split; [rewrite !app_length; simpl; lia|].
        intros k y r' Hy Hr'. destruct (Nat.lt_trichotomy k (length xs)) as [Hk|[->|Hk]].
        -- rewrite nth_error_app1 in Hy, Hr' by lia. eauto.
        -- rewrite nth_error_app2, Nat.sub_diag in Hy by lia.
           rewrite nth_error_app2, <- Hl, Nat.sub_diag in Hr' by lia.
           injection Hy as <-. injection Hr' as <-. auto.
        -- rewrite nth_error_app2 in Hy by lia. destruct (k - length xs) as [|[]] eqn:Ek; [lia|discriminate..].
      * right. exists (length xs), err. split.
        -- exists x. rewrite nth_error_app2, Nat.sub_diag by lia. auto.
        -- intros j y Hj Hy. rewrite nth_error_app1 in Hy by auto.
           destruct (nth_both xs rs j y Hl Hy) as [r' Hr']. eauto.
    + right. exists k, err. split.
      * exists y. split; auto. rewrite nth_error_app1; auto. apply nth_error_Some. congruence.
      * intros j z Hj Hz. apply Hk with (x := z); auto. rewrite nth_error_app1 in Hz; auto.
        assert (nth_error xs k <> None) as H by congruence. apply nth_error_Some in H. lia.
Qed.
Lemma select_case d m F xs b : ElementSelector m -> Proper F ->
  ElementBuilder b -> ValidArgs [OSelect d (inl m) b] ->
  (forall rs, length rs = length xs -> exists out, SelectsIn d m F xs rs out) ->
  (exists rs out, SelectsIn d m F xs rs out /\ Builds_all b xs rs /\
     Gives (events F) [OSelect d (inl m) b] (inl out)) \/
  (exists k err, First_failure b xs k err /\ Gives (events F) [OSelect d (inl m) b] (inr err)).
Proof.
  intros Hm HF Hb Hv Hx.
  destruct (Hx (repeat [] (length xs))) as [o0 Ho]; [apply repeat_length|].
  destruct (builds_case b xs Hb) as [(rs & Hr)|(k & err & Hk)].
  - eapply select_builder_valid; eauto.
  - intros x Hin. eapply selects_in_element; eauto.
  - left. destruct (Hx rs) as [out Hs]; [symmetry; apply Hr|].
    exists rs, out. split; [exact Hs|]. split; [exact Hr|]. eapply select_result; eauto.
  - right. exists k, err. split; [exact Hk|]. eapply select_failure; eauto.
Qed.
Lemma select_success d m F b out : ElementSelector m -> Proper F ->
  ElementBuilder b -> ValidArgs [OSelect d (inl m) b] -> 
  Gives (events F) [OSelect d (inl m) b] (inl out) ->
  exists xs rs, SelectsIn d m F xs rs out /\ Builds_all b xs rs.
Proof.
  intros Hm HF Hb Hv Hg. destruct (selection_in_exists d m F) as [xs Hx].
  destruct (select_case d m F xs b Hm HF Hb Hv Hx) as [(rs & o & H1 & H2 & H3)|(k & err & H1 & H2)].
  - exists xs, rs. pose proof (gives_det _ _ _ _ Hg H3) as E. injection E as ->. auto.
  - pose proof (gives_det _ _ _ _ Hg H2). discriminate.
Qed.
Lemma selects_in_matching d m F xs rs out x : SelectsIn d m F xs rs out -> In x xs -> matches m (start x) = true.
Proof. destruct d; intros H; [eapply selects_direct_matching|eapply selects_matching]; eauto. Qed.

(** ** Two selections with one selector *)

Lemma selects_again m F xs rs out : Selects m F xs rs out -> Proper F ->
  forall ys, rs = map tree_events ys -> (forall y, In y ys -> ProperTree y /\ matches m (start y) = true) ->
  exists F', Proper F' /\ out = events F' /\
    forall ss out', Selects m F xs ss out' -> Selects m F' ys ss out'.
Proof.
  induction 1 as [|x F xs r rs out Hx H IH|ev F xs rs out Hx H IH
                 |t a kids c F xs1 rs1 out1 xs2 rs2 out2 Hx H1 IH1 H2 IH2]; intros HF ys E Hy.
  - destruct ys; [|discriminate]. exists []. split; [apply proper_nil|]. split; [reflexivity|].
    intros ss out' H. inversion H; subst. constructor.
  - apply proper_cons in HF as [HP HF]. destruct ys as [|y ys]; [discriminate|]. injection E as -> E.
    destruct (Hy y (or_introl eq_refl)) as [Py My].
    destruct (IH HF ys E) as (F' & H1 & -> & H3); [intros; apply Hy; now right|].
    exists (y :: F'). split; [now apply proper_cons|]. split; [reflexivity|].
    intros ss out' H'. inversion H'; subst; simpl in *; try congruence. now apply Sel_match; auto.
  - apply proper_cons in HF as [HP HF]. destruct (IH HF ys E Hy) as (F' & H1 & -> & H3).
    exists (Leaf ev :: F'). split; [now apply proper_cons|]. split; [reflexivity|].
    intros ss out' H'. inversion H'; subst; simpl in *; try congruence. now apply Sel_leaf; auto.
  - apply proper_cons in HF as [HP HF]. inversion HP; subst.
    symmetry in E. apply map_eq_app in E as (ys1 & ys2 & -> & E1 & E2).
    destruct (IH1 ltac:(assumption) ys1 (eq_sym E1)) as (K & K1 & -> & K3);
      [intros; apply Hy, in_or_app; now left|].
    destruct (IH2 HF ys2 (eq_sym E2)) as (F' & F1 & -> & F3); [intros; apply Hy, in_or_app; now right|].
    exists (Elem t a K c :: F'). split; [|split].
    + apply proper_cons. split; auto. now constructor.
    + rewrite events_cons, tree_events_elem. simpl. now rewrite <- app_assoc.
    + intros ss out' H'.
      remember (Elem t a kids c :: F) as L eqn:EL. remember (xs1 ++ xs2) as X eqn:EX.
      destruct H'; try discriminate.
      * injection EL as -> ->. simpl in *. congruence.
      * injection EL as -> -> -> -> ->.
        assert (xs0 = xs1) as -> by (eapply selection_unique; eauto).
        apply app_inv_head in EX as ->. apply Sel_inside; auto.
Qed.
Lemma selects_direct_again m F xs rs out : SelectsDirect m F xs rs out -> Proper F ->
  forall ys, rs = map tree_events ys -> (forall y, In y ys -> ProperTree y /\ matches m (start y) = true) ->
  exists F', Proper F' /\ out = events F' /\
    forall ss out', SelectsDirect m F xs ss out' -> SelectsDirect m F' ys ss out'.
Proof.
  induction 1 as [|x F xs r rs out Hx H IH|x F xs rs out Hx H IH]; intros HF ys E Hy.
  - destruct ys; [|discriminate]. exists []. split; [apply proper_nil|]. split; [reflexivity|].
    intros ss out' H. inversion H; subst. constructor.
  - apply proper_cons in HF as [HP HF]. destruct ys as [|y ys]; [discriminate|]. injection E as -> E.
    destruct (Hy y (or_introl eq_refl)) as [Py My].
    destruct (IH HF ys E) as (F' & H1 & -> & H3); [intros; apply Hy; now right|].
    exists (y :: F'). split; [now apply proper_cons|]. split; [reflexivity|].
    intros ss out' H'. inversion H'; subst; simpl in *; try congruence. now apply SelD_match; auto.
  - apply proper_cons in HF as [HP HF]. destruct (IH HF ys E Hy) as (F' & H1 & -> & H3).
    exists (x :: F'). split; [now apply proper_cons|]. split; [reflexivity|].
    intros ss out' H'. inversion H'; subst; simpl in *; try congruence. now apply SelD_other; auto.
Qed.
Lemma selects_in_again d m F xs ys out : SelectsIn d m F xs (map tree_events ys) out -> Proper F ->
  (forall y, In y ys -> ProperTree y /\ matches m (start y) = true) ->
  exists F', Proper F' /\ out = events F' /\
    forall ss out', SelectsIn d m F xs ss out' -> SelectsIn d m F' ys ss out'.
Proof. destruct d; intros H HF Hy; [eapply selects_direct_again|eapply selects_again]; eauto. Qed.

Lemma map_choice {A B} (P : A -> B -> Prop) (l : list B) : (forall y, In y l -> exists x, P x y) ->
  exists xs, Forall2 P xs l.
Proof.
  induction l as [|y l IH]; intros H; [exists []; constructor|].
  destruct (H y (or_introl eq_refl)) as [x Hx]. destruct IH as [xs Hxs]; [intros; apply H; now right|].
  exists (x :: xs). now constructor.
Qed.

Lemma typed_chain b1 b2 : (forall k, typed true (b1 k) true) -> ElementBuilder b2 ->
  ElementBuilder (fun k => b1 k ++ b2 k).
Proof. intros H1 H2 k. destruct (H2 k) as [e He]. exists e. eapply typed_app; eauto. Qed.

Lemma fuse_at d m b1 b2 F : ElementSelector m -> Proper F ->
  (forall k, typed true (b1 k) true) -> ElementBuilder b2 ->
  (forall k, ValidArgs (b1 k)) -> (forall k, ValidArgs (b2 k)) -> Stays m b1 ->
  (exists mid, Gives (events F) [OSelect d (inl m) b1] (inl mid) /\
     forall r, Gives mid [OSelect d (inl m) b2] r <->
               Gives (events F) [OSelect d (inl m) (fun k => b1 k ++ b2 k)] r) \/
  (exists k err, (exists x, ProperTree x /\ IsElement x /\ matches m (start x) = true /\
                   Gives (tree_events x) (b1 k) (inr err)) /\
   Gives (events F) [OSelect d (inl m) b1] (inr err) /\
   exists err', Gives (events F) [OSelect d (inl m) (fun k => b1 k ++ b2 k)] (inr err')).
Proof.
  intros Hm HF T1 T2 V1 V2 Hst.
  assert (ElementBuilder b1) as Hb1 by (intros k; eauto).
  pose proof (typed_chain b1 b2 T1 T2) as Hb.
  assert (forall k, ValidArgs (b1 k ++ b2 k)) as Hvb by (intros k; now apply valid_args_app).
  assert (ValidArgs [OSelect d (inl m) b1]) as Hv1 by (apply valid_args_wrap; auto; intros q [k ->]; auto).
  assert (ValidArgs [OSelect d (inl m) b2]) as Hv2 by (apply valid_args_wrap; auto; intros q [k ->]; auto).
  assert (ValidArgs [OSelect d (inl m) (fun k => b1 k ++ b2 k)]) as Hv
    by (apply valid_args_wrap; auto; intros q [k ->]; auto).
  destruct (selection_in_exists d m F) as [xs Hx].
  assert (forall x, In x xs -> ProperTree x /\ IsElement x /\ matches m (start x) = true) as Hel.
  { destruct (Hx (repeat [] (length xs))) as [o0 Ho]; [apply repeat_length|]. intros x Hin.
    destruct (selects_in_element d m F xs _ _ x Hm Ho HF Hin). split; [|split]; auto.
    eapply selects_in_matching; eauto. }
  destruct (select_case d m F xs b1 Hm HF Hb1 Hv1 Hx) as [(rs & mid & S1 & B1 & G1)|(k & err & K & G1)].
  - left. exists mid. split; [exact G1|].
    destruct (map_choice (fun y r => r = tree_events y /\ ProperTree y /\ IsElement y /\ matches m (start y) = true) rs)
      as [ys Hys].
    { intros r Hr. apply In_nth_error in Hr as [k Hk].
      destruct (nth_both rs xs k r (eq_sym (proj1 B1)) Hk) as [x Hxk].
      destruct (Hel x) as (P & I & M); [eapply nth_error_In; eauto|].
      apply (Hst k x r P I M). apply B1; auto. }
    assert (rs = map tree_events ys) as ->.
    { clear -Hys. induction Hys as [|y r ys rs [H _] _ IH]; simpl; congruence. }
    assert (forall y, In y ys -> ProperTree y /\ matches m (start y) = true) as Hy.
    { intros y Hin. clear -Hys Hin. induction Hys as [|z r ys rs H _ IH]; [contradiction|].
      destruct Hin as [->|Hin]; auto. tauto. }
    destruct (selects_in_again d m F xs ys mid S1 HF Hy) as (F' & HF' & -> & Hag).
    assert (length ys = length xs) as Hlen by (rewrite (proj1 B1); now rewrite map_length).
    assert (forall k x y r, nth_error xs k = Some x -> nth_error ys k = Some y ->
              Gives (tree_events y) (b2 k) r <-> Gives (tree_events x) (b1 k ++ b2 k) r) as Hch.
    { intros k x y r Hxk Hyk. destruct (T2 k) as [e2 He2].
      destruct (Hel x) as (P & I & M); [eapply nth_error_In; eauto|].
      symmetry. eapply (chain_result true (b1 k) (b2 k) e2).
      - exists x; auto.
      - eapply typed_app; eauto.
      - auto.
      - destruct B1 as [_ B1]. apply (B1 k x); auto. rewrite nth_error_map, Hyk. reflexivity. }
    destruct (select_case d m F xs _ Hm HF Hb Hv Hx) as [(ss & out & S2 & B2 & G2)|(k & err & K & G2)].
    + assert (Gives (events F') [OSelect d (inl m) b2] (inl out)) as G3.
      { eapply select_result; eauto. split; [rewrite Hlen; apply B2|]. intros k y r Hyk Hr.
        destruct (nth_both ys xs k y Hlen Hyk) as [x Hxk]. apply (Hch k x y _ Hxk Hyk). now apply B2. }
      intros r. split; intros G.
      * now rewrite (gives_det _ _ _ _ G G3).
      * now rewrite (gives_det _ _ _ _ G G2).
    + destruct (Hx (repeat [] (length xs))) as [o0 Ho]; [apply repeat_length|].
      assert (Gives (events F') [OSelect d (inl m) b2] (inr err)) as G3.
      { eapply (select_failure d m F' ys _ _ b2 k err); eauto. destruct K as [(x & Hxk & Hgx) K]. split.
        - destruct (nth_both xs ys k x (eq_sym Hlen) Hxk) as [y Hyk]. exists y. split; auto.
          now apply (Hch k x y _ Hxk Hyk).
        - intros j y Hj Hyj. destruct (nth_both ys xs j y Hlen Hyj) as [x' Hxj].
          destruct (K j x' Hj Hxj) as [r Hr]. exists r. now apply (Hch j x' y _ Hxj Hyj). }
      intros r. split; intros G.
      * now rewrite (gives_det _ _ _ _ G G3).
      * now rewrite (gives_det _ _ _ _ G G2).
  - right. exists k, err. destruct K as [(x & Hxk & Hgx) K]. split; [|split].
    + exists x. destruct (Hel x) as (P & I & M); [eapply nth_error_In; eauto|]. auto.
    + exact G1.
    + destruct (select_case d m F xs _ Hm HF Hb Hv Hx) as [(ss & out & S2 & B2 & G2)|(k' & err' & K' & G2)]; eauto.
      exfalso. destruct (nth_both xs ss k x (proj1 B2) Hxk) as [s Hs].
      destruct B2 as [_ B2]. specialize (B2 k x s Hxk Hs).
      destruct (T2 k) as [e2 He2]. destruct (Hel x) as (P & I & M); [eapply nth_error_In; eauto|].
      destruct (chain_failure true (b1 k) (b2 k) e2 (tree_events x) err) as [err' G3]; auto.
      * exists x; auto.
      * eapply typed_app; eauto.
      * pose proof (gives_det _ _ _ _ B2 G3). discriminate.
Qed.

Lemma two_selects_typed d m b1 d' m' b2 : ElementBuilder b1 -> ElementBuilder b2 ->
  typed false ([OSelect d (inl m) b1] ++ [OSelect d' (inl m') b2]) false.
Proof. intros. apply (typed_app _ _ false); now apply typed_select. Qed.
Lemma two_selects_valid d m b1 d' m' b2 : (forall k, ValidArgs (b1 k)) -> (forall k, ValidArgs (b2 k)) ->
  ValidArgs ([OSelect d (inl m) b1] ++ [OSelect d' (inl m') b2]).
Proof.
  intros. apply valid_args_app; apply valid_args_wrap; auto; intros q [k ->]; auto.
Qed.

Lemma fuse_equal e d m b1 b2 : ElementSelector m ->
  (forall k, typed true (b1 k) true) -> ElementBuilder b2 ->
  (forall k, ValidArgs (b1 k)) -> (forall k, ValidArgs (b2 k)) -> Stays m b1 -> Succeeds m b1 ->
  Equal e [OSelect d (inl m) b1; OSelect d (inl m) b2] [OSelect d (inl m) (fun k => b1 k ++ b2 k)].
Proof.
  intros Hm T1 T2 V1 V2 Hst Hsu. apply equal_weaken. intros evs r (F & HF & ->).
  assert (ElementBuilder b1) as Hb1 by (intros k; eauto).
  destruct (fuse_at d m b1 b2 F Hm HF T1 T2 V1 V2 Hst) as [(mid & G1 & G2)|(k & err & (x & P & I & M & G) & _)].
  - rewrite <- G2. apply (chain_result false [_] [_] false (events F) mid r); auto.
    + exists F; auto.
    + now apply two_selects_typed.
    + now apply two_selects_valid.
  - exfalso. destruct (Hsu k x P I M) as [out G']. pose proof (gives_det _ _ _ _ G G'). discriminate.
Qed.
Lemma fuse_agree e d m b1 b2 : ElementSelector m ->
  (forall k, typed true (b1 k) true) -> ElementBuilder b2 ->
  (forall k, ValidArgs (b1 k)) -> (forall k, ValidArgs (b2 k)) -> Stays m b1 ->
  Agree e [OSelect d (inl m) b1; OSelect d (inl m) b2] [OSelect d (inl m) (fun k => b1 k ++ b2 k)].
Proof.
  intros Hm T1 T2 V1 V2 Hst evs out Hs. apply selection_well_nested in Hs as (F & HF & ->).
  assert (ElementBuilder b1) as Hb1 by (intros k; eauto).
  assert (Selection false (events F)) as Hsel by (exists F; auto).
  destruct (fuse_at d m b1 b2 F Hm HF T1 T2 V1 V2 Hst) as [(mid & G1 & G2)|(k & err & _ & G1 & err' & G2)].
  - rewrite <- G2. apply (chain_result false [_] [_] false (events F) mid); auto.
    + now apply two_selects_typed.
    + now apply two_selects_valid.
  - destruct (chain_failure false [OSelect d (inl m) b1] [OSelect d (inl m) b2] false (events F) err) as [err2 G3]; auto.
    + now apply two_selects_typed.
    + now apply two_selects_valid.
    + simpl in G3. split; intros G; exfalso.
      * pose proof (gives_det _ _ _ _ G G3). discriminate.
      * pose proof (gives_det _ _ _ _ G G2). discriminate.
Qed.
