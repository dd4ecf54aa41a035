(** Proofs for C69: selectors that match anything. *)
From Coq Require Import String ZArith.
From stdpp Require Import gmap.
From Verif Require Import Text Event Input Parse Selector Machine Template StreamBase.
From Verif Require Import SpecText SpecAttr SpecParse SpecTree SpecTransform SpecMeet.
From Verif Require Import Trace TraceProofs PipelineProofs FuelProofs TreeProofs ReachProofs ErrorProofs SelectionProofs OpProofs.
Local Open Scope nat_scope.

(** ** Where errors come from *)

Definition Wrongs (m : selector) (S : stream_error -> Prop) : Prop :=
  forall ev, matches m ev = true -> element_tag_start ev = None -> S (wrong_match ev).
Definition GivenOrWrong (p : pipeline) (err : stream_error) : Prop :=
  Given p err \/ exists o m ev, Occurs p o /\ op_selector o = Some (inl m) /\ matches m ev = true /\
    element_tag_start ev = None /\ err = wrong_match ev.

Lemma single_error_any m (S : stream_error -> Prop) ev rest t err : Wrongs m S -> matches m ev = true ->
  snd (fst (d_single ev rest t)) = Some err -> t = Some err \/ S err.
Proof.
  intros Hw Hm E. destruct (element_tag_start ev) eqn:Es.
  - left. eapply single_error; eauto. congruence.
  - right. specialize (Hw ev Hm Es). destruct ev; simpl in *; try discriminate; injection E as <-; exact Hw.
Qed.

Lemma select_error_any m g direct t (S : stream_error -> Prop) : Wrongs m S ->
  (forall k, From (g k) true S) -> (forall k, Keeps (g k) true false) ->
  forall n evs level calls st st' err,
  length evs <= n -> nest st evs = Some st' -> (t = None -> st' = []) -> level = length st ->
  snd (d_select n m g direct level calls evs t) = Some err -> t = Some err \/ S err.
Proof.
  intros Hm Hg Hk. induction n as [|n IH]; intros evs level calls st st' err Hlen Hn Ht Hlev.
  { simpl. auto. }
  destruct evs as [|ev rest]; simpl; [auto|].
  destruct (include direct level && matches m ev) eqn:Ei.
  - apply andb_true_iff in Ei as [_ Em].
    pose proof (single_good st ev rest st' t Hn Ht) as Hs.
    pose proof (single_error_any m S ev rest t err Hm Em) as He.
    destruct (d_single ev rest t) as [el rest'] eqn:Ed. simpl in He. destruct Hs as [Hel Hrest].
    intros E. apply tapp_error in E as [E|[Eg E]].
    + destruct (Hg calls el err Hel E) as [H|H]; auto.
    + destruct Hrest as [(Happ & Htel & Hnest)|Htel].
      * eapply (IH rest' level); eauto.
        apply (f_equal (@length event)) in Happ. rewrite app_length in Happ. simpl in Happ, Hlen.
        destruct el as [[|e0 el] tel]; simpl in *; [|lia]. subst tel. contradiction.
      * exfalso. now apply (proj2 (Hk calls el Hel)).
  - simpl in Hn. destruct (nest1 st ev) as [st1|] eqn:En; [|discriminate].
    pose proof (nest1_adjust _ _ _ En) as Ha. rewrite <- Hlev in Ha. rewrite Ha.
    intros E. apply tapp_error in E as [E|[_ E]]; [discriminate|].
    eapply (IH rest (length st1)); eauto. simpl in Hlen. lia.
Qed.
Lemma from_select_any m g direct e (S : stream_error -> Prop) : Wrongs m S ->
  (forall k, From (g k) true S) -> (forall k, Keeps (g k) true false) ->
  From (fun x => d_select (length (fst x)) m g direct 0 0 (fst x) (snd x)) e S.
Proof.
  intros Hm Hg Hk x err Hx. apply good_false, good_fits in Hx. destruct Hx as (st' & H1 & H2).
  eapply select_error_any; eauto.
Qed.

Lemma select_once_error_any m g direct t (S : stream_error -> Prop) : Wrongs m S ->
  From g true S -> forall evs level st st' err,
  nest st evs = Some st' -> (t = None -> st' = []) -> level = length st ->
  snd (d_select_once m g direct level evs t) = Some err -> t = Some err \/ S err.
Proof.
  intros Hm Hg. induction evs as [|ev rest IH]; intros level st st' err Hn Ht Hlev; simpl; [auto|].
  destruct (include direct level && matches m ev) eqn:Ei.
  - apply andb_true_iff in Ei as [_ Em].
    pose proof (single_good st ev rest st' t Hn Ht) as Hs.
    pose proof (single_error_any m S ev rest t err Hm Em) as He.
    destruct (d_single ev rest t) as [el rest'] eqn:Ed. simpl in He. destruct Hs as [Hel Hrest].
    intros E. apply tapp_error in E as [E|[Eg E]]; [|auto].
    destruct (Hg el err Hel E) as [H|H]; auto.
  - simpl in Hn. destruct (nest1 st ev) as [st1|] eqn:En; [|discriminate].
    pose proof (nest1_adjust _ _ _ En) as Ha. rewrite <- Hlev in Ha. rewrite Ha.
    intros E. apply tapp_error in E as [E|[_ E]]; [discriminate|].
    eapply (IH (length st1)); eauto.
Qed.
Lemma from_select_once_any m g direct e (S : stream_error -> Prop) : Wrongs m S ->
  From g true S -> From (fun x => d_select_once m g direct 0 (fst x) (snd x)) e S.
Proof.
  intros Hm Hg x err Hx. apply good_false, good_fits in Hx. destruct Hx as (st' & H1 & H2).
  eapply select_once_error_any; eauto.
Qed.

Lemma from_op_any : forall o p e e', In o p -> typed_op e o e' -> WellP p ->
  From (d_op o) e (GivenOrWrong p).
Proof.
  apply (op_sub_ind (fun o => forall p e e', In o p -> typed_op e o e' -> WellP p -> From (d_op o) e (GivenOrWrong p))).
  intros o IH p e e' Hin Ht Hw.
  assert (WellP p) as Hwp by exact Hw. specialize (Hw o Hin).
  assert (forall q e e', Sub o q -> typed e q e' -> From (d_pipe q) e (GivenOrWrong p)) as Hq.
  { intros q e1 e2 Hs Hty. eapply from_pipe_of; [|eapply well_sub; eauto|eauto].
    intros o' Ho' e3 e4 Hty'. eapply from_mono.
    - eapply (IH q Hs o' Ho' q); eauto; eapply well_sub; eauto.
    - intros err [(o2 & Ho2 & He)|(o2 & m & ev & Ho2 & Hm)]; [left; exists o2|right; exists o2, m, ev];
        (split; [eapply Occurs_deeper; eauto|auto]). }
  assert (forall q e e', Sub o q -> typed e q e' -> Keeps (d_pipe q) e e') as Hk.
  { intros q e1 e2 Hs Hty. eapply keeps_pipe; eauto. eapply well_sub; eauto. }
  assert (forall err, SuppliesError o err -> GivenOrWrong p err) as HS.
  { intros err He. left. exists o. split; auto. now apply Occurs_here. }
  assert (forall m, op_selector o = Some (inl m) -> Wrongs m (GivenOrWrong p)) as Hm.
  { intros m Hm ev E1 E2. right. exists o, m, ev. repeat split; auto. now apply Occurs_here. }
  clear IH.
  assert (forall bs e, (forall q, In q bs -> Sub o q) ->
    Forall (fun q => exists e', typed e q e') bs ->
    From (d_repeat (map (fun q x => d_pipe q x) bs)) e (GivenOrWrong p)) as Hrep.
  { intros bs e0 Hs Hf. apply from_repeat. intros g Hg. apply in_map_iff in Hg as (q & <- & Hq').
    rewrite Forall_forall in Hf. destruct (Hf q) as [e1 He1]; [now apply elem_of_list_In|].
    eapply Hq; eauto. }
  assert (forall c, op_content o = Some c -> forall err, ContentGives c (inr err) -> GivenOrWrong p err) as Hc.
  { intros c Hc err He. apply HS. right. right. left. eauto. }
  assert (forall i, op_name o = Some (inr i) -> GivenOrWrong p (SEIdentifier i)) as Hn.
  { intros i Hi. apply HS. right. left. eauto. }
  assert (forall err, op_selector o = Some (inr err) -> GivenOrWrong p err) as Hse.
  { intros err He. apply HS. now left. }
  inversion Ht; subst; try (apply from_named; intros i ->; now apply Hn).
  - apply (Hq p0 e e'); simpl; auto.
  - apply from_id.
  - apply from_id.
  - apply (Hq p0 e e'0); simpl; auto.
  - intros x err Hx. simpl. unfold d_as_template. destruct (snd x); [simpl; auto|].
    destruct (f (fst x)) eqn:Ef; simpl; [discriminate|]. intros [= <-]. right. apply HS.
    right. right. right. exists f, (fst x). auto.
  - destruct sel as [m|err]; [|apply from_error; now apply Hse].
    apply (from_select_any m (fun k => d_pipe (b k))); [now apply Hm|..].
    + intros k. destruct (H k) as [e1 He1]. eapply Hq; simpl; eauto.
    + intros k. destruct (H k) as [e1 He1]. eapply keeps_weaken. eapply Hk; simpl; eauto.
  - destruct sel as [m|err]; [|apply from_error; now apply Hse].
    apply (from_select_once_any m (d_pipe p0)); [now apply Hm|]. eapply Hq; simpl; eauto.
  - apply from_remove.
  - apply (from_content c e (GivenOrWrong p) (fun x => x)); [now apply Hc|apply from_id].
  - apply from_append. now apply Hc.
  - apply (from_content c e (GivenOrWrong p) d_remove); [now apply Hc|apply from_remove].
  - apply (Hrep bs); auto.
  - destruct bs as [|b0 bs].
    + apply (Hq p0 e e'0); simpl; auto.
    + apply (Hrep (b0 :: bs)); simpl; auto.
  - apply (from_contents (d_pipe p0)). eapply Hq; simpl; eauto.
  - destruct sel as [m|err]; [|apply from_error; now apply Hse].
    apply (from_contents (fun x => d_select (length (fst x)) m (fun k => d_pipe (b k)) direct 0 0 (fst x) (snd x))).
    apply from_select_any; [now apply Hm|..].
    + intros k. destruct (H k) as [e1 He1]. eapply Hq; simpl; eauto.
    + intros k. destruct (H k) as [e1 He1]. eapply keeps_weaken. eapply Hk; simpl; eauto.
  - destruct sel as [m|err]; [|apply from_error; now apply Hse].
    apply (from_contents (fun x => d_select_once m (d_pipe p0) direct 0 (fst x) (snd x))).
    apply from_select_once_any; [now apply Hm|]. eapply Hq; simpl; eauto.
  - apply (from_contents d_remove), from_remove.
  - apply (from_contents (fun x => tapp (d_content c) x)).
    apply (from_content c false (GivenOrWrong p) (fun x => x)); [now apply Hc|apply from_id].
  - apply (from_contents (fun x => tapp x (d_content c))). apply from_append. now apply Hc.
  - apply (from_contents (fun x => tapp (d_content c) (d_remove x))).
    apply (from_content c false (GivenOrWrong p) d_remove); [now apply Hc|apply from_remove].
  - apply (from_contents (d_repeat (map (fun p x => d_pipe p x) bs))). apply (Hrep bs); auto.
  - destruct bs as [|b0 bs].
    + apply (Hq p0 true e'0); simpl; auto.
    + apply (from_contents (d_repeat (map (fun p x => d_pipe p x) (b0 :: bs)))).
      apply (Hrep (b0 :: bs)); simpl; auto.
  - apply from_attr.
Qed.

Lemma from_pipe_any p e e' : typed e p e' -> WellP p -> From (d_pipe p) e (GivenOrWrong p).
Proof.
  intros Ht Hw. eapply from_pipe_of; eauto. intros o Ho e1 e2 Hty. eapply from_op_any; eauto.
Qed.


Lemma errors_any evs p e err : WellNested evs -> typed false p e -> ValidArgs p ->
  Gives evs p (inr err) ->
  (exists o, Occurs p o /\ SuppliesError o err) \/
  exists o m ev, Occurs p o /\ op_selector o = Some (inl m) /\ matches m ev = true /\
    ~ Begins ev /\ err = wrong_match ev.
Proof.
  intros Hn Ht Hv Hg. pose proof (good_template _ Hn) as Hgood.
  pose proof (gives_trace_error _ _ _ _ _ Hgood Ht Hv Hg) as Htr.
  destruct (from_pipe_any p false e Ht (valid_args_well _ Hv) _ err Hgood Htr)
    as [H|[H|(o & m & ev & H1 & H2 & H3 & H4 & H5)]]; [discriminate|now left|].
  right. exists o, m, ev. repeat split; auto.
Qed.

(** ** What is met *)

Section Meet.
Context (m : selector) (g : nat -> trace -> trace) (S : stream_error -> Prop).
Context (Hg : forall k, From (g k) true S) (Hk : forall k, Keeps (g k) true false).

Lemma wrong_good err : Good true ([], Some err).
Proof. exact I. Qed.
Lemma dsel_wrong direct level calls ev rest t :
  include direct level = true -> matches m ev = true -> element_tag_start ev = None ->
  exists err, snd (dsel m g direct level calls (ev :: rest) t) = Some err /\ (err = wrong_match ev \/ S err).
Proof.
  intros Hi Hm Hs. rewrite dsel_match by assumption.
  assert (d_single ev rest t = (([], Some (wrong_match ev)), rest)) as -> by (destruct ev; done).
  destruct (snd (g calls ([], Some (wrong_match ev)))) as [err|] eqn:E.
  - exists err. split; [now apply tapp_snd|].
    destruct (Hg calls _ err (wrong_good _) E) as [[= <-]|]; auto.
  - exfalso. eapply (proj2 (Hk calls _ (wrong_good (wrong_match ev)))); [discriminate|exact E].
Qed.
Lemma dsel_begins direct level calls x rest t :
  include direct level = true -> matches m (start x) = true -> ProperTree x -> Begins (start x) ->
  (exists err, snd (dsel m g direct level calls (tree_events x ++ rest) t) = Some err /\ S err) \/
  exists out, dsel m g direct level calls (tree_events x ++ rest) t =
    tapp (out, None) (dsel m g direct level (Datatypes.S calls) rest t).
Proof.
  intros Hi Hm Hp Hb. assert (IsElement x) as He.
  { unfold IsElement. unfold Begins in Hb. destruct (start x); simpl in *; auto. }
  rewrite dsel_tree by assumption.
  assert (Good true (tree_events x, None)) as Hgood by (now apply good_element).
  destruct (g calls (tree_events x, None)) as [out [err|]] eqn:E.
  - left. exists err. split; [reflexivity|].
    destruct (Hg calls _ err Hgood) as [H|H]; [now rewrite E|discriminate|exact H].
  - right. exists out. reflexivity.
Qed.

Lemma in_wrong evs1 evs2 ev : FirstWrong (evs1 ++ evs2) ev ->
  FirstWrong evs1 ev \/ ((forall x, In x evs1 -> Begins x) /\ FirstWrong evs2 ev).
Proof.
  induction evs1 as [|e0 evs1 IH]; intros (pre & post & E & Hpre & Hev).
  - right. split; [intros x []|]. exists pre, post. auto.
  - destruct pre as [|p0 pre]; injection E as -> E.
    + left. exists [], evs1. auto.
    + destruct IH as [(pre1 & post1 & -> & H1 & H2)|[H1 H2]].
      * exists pre, post. auto using in_cons.
      * left. exists (p0 :: pre1), post1. split; [reflexivity|]. split; [|exact H2].
        intros x [<-|Hx]; auto using in_eq.
      * right. split; [|exact H2]. intros x [<-|Hx]; auto using in_eq.
Qed.
Lemma wrong_nil ev : ~ FirstWrong [] ev.
Proof. intros ([|] & post & E & _); discriminate. Qed.
Lemma wrong_single ev ev' : FirstWrong [ev] ev' -> ev' = ev /\ ~ Begins ev.
Proof.
  intros (pre & post & E & H1 & H2). destruct pre as [|p0 [|]]; try discriminate.
  injection E as <- _. auto.
Qed.
Lemma wrong_cons ev evs ev' : FirstWrong (ev :: evs) ev' ->
  (ev' = ev /\ ~ Begins ev) \/ (Begins ev /\ FirstWrong evs ev').
Proof.
  intros H. apply (in_wrong [ev] evs) in H as [H|[H1 H2]].
  - left. now apply wrong_single.
  - right. split; auto. apply H1. now left.
Qed.

(** Either a builder fails, or everything is passed; or there is a wrong match. *)
Definition Fated (evs : list event) (F : list tree) direct level : Prop :=
  forall calls rest t,
  (forall ev, FirstWrong evs ev ->
     exists err, snd (dsel m g direct level calls (events F ++ rest) t) = Some err /\
                 (err = wrong_match ev \/ S err)) /\
  ((forall ev, In ev evs -> Begins ev) ->
     (exists err, snd (dsel m g direct level calls (events F ++ rest) t) = Some err /\ S err) \/
     exists out calls', dsel m g direct level calls (events F ++ rest) t =
       tapp (out, None) (dsel m g direct level calls' rest t)).

Lemma fated_nil direct level : Fated [] [] direct level.
Proof.
  intros calls rest t. split; [intros ev H; now apply wrong_nil in H|].
  intros _. right. exists [], calls. unfold tapp. simpl. apply surjective_pairing.
Qed.
Lemma fated_match x F evs direct level : include direct level = true -> matches m (start x) = true ->
  Proper (x :: F) -> Fated evs F direct level -> Fated (start x :: evs) (x :: F) direct level.
Proof.
  intros Hi Hm HF H calls rest t. apply proper_cons in HF as [Hx HF].
  rewrite events_cons, <- app_assoc. split.
  - intros ev Hw. apply wrong_cons in Hw as [[-> Hb]|[Hb Hw]].
    + assert (exists tl, tree_events x = start x :: tl) as [tl ->].
      { destruct x; [exists []; reflexivity|]. rewrite tree_events_elem. eauto. }
      cbn [app]. apply dsel_wrong; auto. unfold Begins in Hb.
      destruct (element_tag_start (start x)); [exfalso; apply Hb; discriminate|reflexivity].
    + destruct (dsel_begins direct level calls x (events F ++ rest) t) as [(err & E & He)|[out E]]; auto.
      * eauto.
      * rewrite E. rewrite tapp_snd_none by reflexivity. now apply H.
  - intros Hb.
    destruct (dsel_begins direct level calls x (events F ++ rest) t) as [(err & E & He)|[out E]]; auto using in_eq.
    + eauto.
    + rewrite E. rewrite tapp_snd_none by reflexivity.
      destruct (proj2 (H (Datatypes.S calls) rest t)) as [(err & E2 & He)|(out2 & c2 & E2)]; auto using in_cons.
      * left. eauto.
      * right. exists (out ++ out2), c2. rewrite E2. apply tapp_app.
Qed.
(** Events that are passed one by one. *)
Lemma fated_pass pre x F evs direct level :
  (forall calls rest t, dsel m g direct level calls (tree_events x ++ rest) t =
    tapp (pre, None) (dsel m g direct level calls rest t)) ->
  Fated evs F direct level -> Fated evs (x :: F) direct level.
Proof.
  intros Hx H calls rest t. rewrite events_cons, <- app_assoc, Hx. rewrite tapp_snd_none by reflexivity.
  destruct (H calls rest t) as [H1 H2]. split; [exact H1|]. intros Hb.
  destruct (H2 Hb) as [H3|(out & c & ->)]; [now left|]. right. exists (pre ++ out), c. apply tapp_app.
Qed.

Lemma meets_fated F evs : Meets m F evs -> Proper F -> forall level, Fated evs F false level.
Proof.
  induction 1 as [|x F evs Hm _ IH|ev F evs Hm _ IH|t0 a kids c F evs1 evs2 Hm _ IH1 _ IH2];
    intros HF level.
  - apply fated_nil.
  - apply fated_match; auto. apply IH. now apply proper_cons in HF.
  - apply proper_cons in HF as [Hx HF]. inversion Hx; subst.
    apply (fated_pass [ev]); auto. intros calls rest t. simpl. apply dsel_leaf; auto.
  - apply proper_cons in HF as [Hx HF]. assert (Proper kids) as Hkids by (inversion Hx; subst; auto).
    specialize (IH1 Hkids (Datatypes.S level)). specialize (IH2 HF level).
    intros calls rest t. rewrite events_cons, tree_events_elem. cbn [app]. rewrite <- !app_assoc. cbn [app].
    rewrite (dsel_skip _ _ _ _ (Datatypes.S level)) by auto. rewrite tapp_snd_none by reflexivity.
    destruct (IH1 calls (ClosingTag c :: events F ++ rest) t) as [A1 A2].
    assert (matches m (ClosingTag c) = false -> forall calls t,
      dsel m g false (Datatypes.S level) calls (ClosingTag c :: events F ++ rest) t =
      tapp ([ClosingTag c], None) (dsel m g false level calls (events F ++ rest) t)) as Hcl.
    { intros Hc calls' t'. apply dsel_skip; [exact Hc|reflexivity]. }
    split.
    + intros ev Hw. apply in_wrong in Hw as [Hw|[Hb Hw]]; [now apply A1|].
      destruct (A2 Hb) as [(err & E & He)|(out & c1 & E)]; [eauto|].
      rewrite E. rewrite tapp_snd_none by reflexivity.
      apply in_wrong in Hw as [Hw|[Hbc Hw]].
      * destruct (matches m (ClosingTag c)) eqn:Ec; [|now apply wrong_nil in Hw].
        apply wrong_single in Hw as [-> _]. now apply dsel_wrong.
      * destruct (matches m (ClosingTag c)) eqn:Ec.
        -- exfalso. apply (Hbc (ClosingTag c)); [now left|reflexivity].
        -- rewrite Hcl by reflexivity. rewrite tapp_snd_none by reflexivity. now apply IH2.
    + intros Hb. destruct A2 as [(err & E & He)|(out & c1 & E)].
      { intros ev Hev. apply Hb, in_or_app. now left. }
      * left. eauto.
      * rewrite E. destruct (matches m (ClosingTag c)) eqn:Ec.
        -- exfalso. apply (Hb (ClosingTag c)); [|reflexivity]. apply in_or_app. right. now left.
        -- rewrite Hcl by reflexivity. rewrite !tapp_snd_none by reflexivity.
           destruct (proj2 (IH2 c1 rest t)) as [(err & E2 & He)|(out2 & c2 & E2)].
           { intros ev Hev. apply Hb, in_or_app. now right. }
           ++ left. eauto.
           ++ right. exists (OpeningTag t0 a :: out ++ ClosingTag c :: out2), c2. rewrite E2.
              unfold tapp. simpl. now rewrite <- !app_assoc.
Qed.
Lemma meets_direct_fated F : Proper F -> Fated (List.filter (matches m) (map start F)) F true 0.
Proof.
  induction F as [|x F IH]; intros HF; [apply fated_nil|].
  simpl. destruct (matches m (start x)) eqn:E.
  - apply fated_match; auto. apply IH. now apply proper_cons in HF.
  - apply proper_cons in HF as [Hx HF]. apply (fated_pass (tree_events x)); auto.
    intros calls rest t. now apply dsel_other.
Qed.
Lemma meets_in_fated direct F evs : MeetsIn direct m F evs -> Proper F -> Fated evs F direct 0.
Proof.
  destruct direct; simpl.
  - intros ->. apply meets_direct_fated.
  - intros H HF. now apply meets_fated.
Qed.
End Meet.

Lemma meets_exists m F : exists evs, Meets m F evs.
Proof.
  assert (forall x F evs, Meets m F evs -> exists evs', Meets m (x :: F) evs') as Hx.
  { apply (tree_rect' (fun x => forall F evs, Meets m F evs -> exists evs', Meets m (x :: F) evs')).
    - intros ev F' evs H. destruct (matches m ev) eqn:E.
      + exists (ev :: evs). now apply (Meets_match m (Leaf ev)).
      + exists evs. now constructor.
    - intros t a kids c IH F' evs H. destruct (matches m (OpeningTag t a)) eqn:E.
      + eexists. apply (Meets_match m (Elem t a kids c)); eauto.
      + assert (exists evs1, Meets m kids evs1) as [evs1 H1].
        { clear E H. induction kids as [|x kids IHk]; [exists []; constructor|].
          destruct IHk as [evs1 H1]; [intros y Hy; apply IH; now right|].
          eapply IH; [now left|exact H1]. }
        eexists. eapply Meets_inside; eauto. }
  induction F as [|x F [evs H]]; [exists []; constructor|]. eapply Hx; eauto.
Qed.
Lemma meets_in_exists direct m F : exists evs, MeetsIn direct m F evs.
Proof. destruct direct; simpl; [eexists; reflexivity|apply meets_exists]. Qed.

(** ** Results *)

Lemma wrong_select direct m F evs ev b : Proper F -> ElementBuilder b ->
  ValidArgs [OSelect direct (inl m) b] -> MeetsIn direct m F evs -> FirstWrong evs ev ->
  exists err, Gives (events F) [OSelect direct (inl m) b] (inr err).
Proof.
  intros HF Hb Hv Hmeet Hw.
  assert (forall k, Keeps (d_pipe (b k)) true false) as Hk.
  { intros k. destruct (Hb k) as [e He]. eapply keeps_weaken, keeps_pipe; eauto.
    apply valid_args_well. eapply select_builder_valid; eauto. }
  destruct (proj1 (meets_in_fated m (fun k => d_pipe (b k)) (fun _ => True)
    ltac:(intros k x err _ _; now right) Hk direct F evs Hmeet HF 0 [] None) ev Hw) as (err & E & _).
  rewrite app_nil_r in E. exists err.
  eapply gives_iff; [apply good_template, well_nested_events, HF|apply typed_select, Hb|exact Hv|].
  change (inr err = outcome (dsel m (fun k => d_pipe (b k)) direct 0 0 (events F) None)).
  unfold outcome. now rewrite E.
Qed.
Lemma wrong_select_error direct m F evs ev b : Proper F -> ElementBuilder b ->
  ValidArgs [OSelect direct (inl m) b] -> (forall k, ElementSelectors (b k)) ->
  (forall k o err, Occurs (b k) o -> ~ SuppliesError o err) ->
  MeetsIn direct m F evs -> FirstWrong evs ev ->
  Gives (events F) [OSelect direct (inl m) b] (inr (wrong_match ev)).
Proof.
  intros HF Hb Hv Hs Hn Hmeet Hw.
  assert (forall k, WellP (b k)) as Hwell.
  { intros k. apply valid_args_well. eapply select_builder_valid; eauto. }
  assert (forall k, Keeps (d_pipe (b k)) true false) as Hk.
  { intros k. destruct (Hb k) as [e He]. eapply keeps_weaken, keeps_pipe; eauto. }
  assert (forall k, From (d_pipe (b k)) true (fun _ => False)) as Hf.
  { intros k. destruct (Hb k) as [e He]. eapply from_mono; [eapply from_pipe; eauto|].
    intros err (o & Ho & He'). eapply Hn; eauto. }
  destruct (proj1 (meets_in_fated m (fun k => d_pipe (b k)) (fun _ => False) Hf Hk
    direct F evs Hmeet HF 0 [] None) ev Hw) as (err & E & [->|[]]).
  rewrite app_nil_r in E.
  eapply gives_iff; [apply good_template, well_nested_events, HF|apply typed_select, Hb|exact Hv|].
  change (inr (wrong_match ev) = outcome (dsel m (fun k => d_pipe (b k)) direct 0 0 (events F) None)).
  unfold outcome. now rewrite E.
Qed.

(** ** If only elements are met *)

Lemma for_elements_begins m ev : Begins ev -> matches (for_elements m) ev = matches m ev.
Proof. unfold Begins. simpl. destruct (element_tag_start ev); [reflexivity|intros H; now destruct H]. Qed.
Lemma for_elements_false m ev : matches m ev = false -> matches (for_elements m) ev = false.
Proof. simpl. now destruct (element_tag_start ev). Qed.
Lemma for_elements_element m : ElementSelector (for_elements m).
Proof. intros ev. simpl. destruct (element_tag_start ev); discriminate. Qed.

Lemma meets_same m g t F evs : Meets m F evs -> Proper F -> (forall ev, In ev evs -> Begins ev) ->
  forall level rest,
  (forall calls, dsel m g false level calls rest t = dsel (for_elements m) g false level calls rest t) ->
  forall calls, dsel m g false level calls (events F ++ rest) t =
                dsel (for_elements m) g false level calls (events F ++ rest) t.
Proof.
  induction 1 as [|x F evs Hm _ IH|ev F evs Hm _ IH|t0 a kids c F evs1 evs2 Hm _ IH1 _ IH2];
    intros HF Hb level rest Hrest calls.
  - apply Hrest.
  - apply proper_cons in HF as [Hx HF]. assert (Begins (start x)) as Hbx by (apply Hb; now left).
    assert (IsElement x) as He.
    { unfold IsElement. unfold Begins in Hbx. destruct (start x); simpl in *; auto. }
    rewrite events_cons, <- app_assoc, !dsel_tree; auto; [|now rewrite for_elements_begins].
    f_equal. apply IH; auto using in_cons.
  - apply proper_cons in HF as [Hx HF]. inversion Hx; subst. simpl.
    rewrite !dsel_leaf by (simpl; auto; now apply (for_elements_false m)). f_equal. now apply IH.
  - apply proper_cons in HF as [Hx HF]. assert (Proper kids) as Hkids by (inversion Hx; subst; auto).
    rewrite events_cons, tree_events_elem. cbn [app]. rewrite <- !app_assoc. cbn [app].
    rewrite !(dsel_skip _ _ _ _ (Datatypes.S level)) by (auto; cbn [include andb]; now apply for_elements_false).
    f_equal. apply IH1; auto.
    { intros ev Hev. apply Hb, in_or_app. now left. }
    assert (matches m (ClosingTag c) = false) as Hc.
    { destruct (matches m (ClosingTag c)) eqn:E; auto. exfalso. apply (Hb (ClosingTag c)); [|reflexivity].
      apply in_or_app. right. now left. }
    intros calls'. rewrite !(dsel_skip _ _ _ _ level) by auto. f_equal. apply IH2; auto.
    intros ev Hev. apply Hb, in_or_app. right. apply in_or_app. now right.
Qed.
Lemma meets_direct_same m g t F : Proper F ->
  (forall ev, In ev (List.filter (matches m) (map start F)) -> Begins ev) -> forall calls,
  dsel m g true 0 calls (events F) t = dsel (for_elements m) g true 0 calls (events F) t.
Proof.
  induction F as [|x F IH]; intros HF Hb calls; [reflexivity|].
  apply proper_cons in HF as [Hx HF]. rewrite events_cons. simpl in Hb.
  destruct (matches m (start x)) eqn:E.
  - assert (Begins (start x)) as Hbx by (apply Hb; now left).
    assert (IsElement x) as He.
    { unfold IsElement. unfold Begins in Hbx. destruct (start x); simpl in *; auto. }
    rewrite !dsel_tree; auto; [|now rewrite for_elements_begins].
    f_equal. apply IH; auto using in_cons.
  - rewrite !dsel_other; auto; [|now apply for_elements_false]. f_equal. now apply IH.
Qed.
Lemma meets_elements direct m F evs b r : Proper F -> ElementBuilder b ->
  ValidArgs [OSelect direct (inl m) b] -> MeetsIn direct m F evs -> (forall ev, In ev evs -> Begins ev) ->
  (Gives (events F) [OSelect direct (inl m) b] r <->
   Gives (events F) [OSelect direct (inl (for_elements m)) b] r).
Proof.
  intros HF Hb Hv Hmeet Hev.
  assert (ValidArgs [OSelect direct (inl (for_elements m)) b]) as Hv'.
  { apply valid_args_wrap; auto. intros q [k ->]. eapply select_builder_valid; eauto. }
  rewrite !(gives_iff (events F) _ false false)
    by (auto using good_template, well_nested_events, typed_select).
  assert (d_pipe [OSelect direct (inl m) b] (events F, None) =
          d_pipe [OSelect direct (inl (for_elements m)) b] (events F, None)) as ->; [|reflexivity].
  change (dsel m (builder_trace b) direct 0 0 (events F) None =
          dsel (for_elements m) (builder_trace b) direct 0 0 (events F) None).
  destruct direct; simpl in Hmeet.
  - red in Hmeet. rewrite Hmeet in Hev. now apply meets_direct_same.
  - rewrite <- (app_nil_r (events F)). eapply meets_same; eauto.
Qed.

(** ** [select_once] *)

Section MeetOnce.
Context (m : selector) (g : trace -> trace) (Hk : Keeps g true false).

Lemma once_wrong direct level ev rest t :
  include direct level = true -> matches m ev = true -> element_tag_start ev = None ->
  d_select_once m g direct level (ev :: rest) t = tapp (g ([], Some (wrong_match ev))) (rest, t).
Proof.
  intros Hi Hm Hs. cbn [d_select_once]. rewrite Hi, Hm. cbn [andb].
  now assert (d_single ev rest t = (([], Some (wrong_match ev)), rest)) as -> by (destruct ev; done).
Qed.
Lemma once_skip direct level level' ev rest t :
  include direct level && matches m ev = false -> adjust level ev = inl level' ->
  d_select_once m g direct level (ev :: rest) t = tapp ([ev], None) (d_select_once m g direct level' rest t).
Proof. intros H1 H2. cbn [d_select_once]. now rewrite H1, H2. Qed.

(** The first event that is met is not the beginning of an element. *)
Definition Trips (evs : list event) (F : list tree) level : Prop :=
  forall rest t,
  (forall ev post, evs = ev :: post -> ~ Begins ev -> exists pre rest',
     d_select_once m g false level (events F ++ rest) t =
     tapp (pre, None) (tapp (g ([], Some (wrong_match ev))) (rest', t))) /\
  (evs = [] -> d_select_once m g false level (events F ++ rest) t =
     tapp (events F, None) (d_select_once m g false level rest t)).

Lemma not_begins ev : ~ Begins ev -> element_tag_start ev = None.
Proof. unfold Begins. destruct (element_tag_start ev); [|reflexivity]. intros H. exfalso. now apply H. Qed.
Lemma meets_once F evs : Meets m F evs -> Proper F -> forall level, Trips evs F level.
Proof.
  induction 1 as [|x F evs Hm _ IH|ev F evs Hm _ IH|t0 a kids c F evs1 evs2 Hm _ IH1 _ IH2];
    intros HF level rest t.
  - split; [discriminate|]. intros _. unfold tapp. simpl. apply surjective_pairing.
  - split; [|discriminate]. intros ev post [= <- <-] Hb.
    assert (exists tl, tree_events x = start x :: tl) as [tl Htl].
    { destruct x; [exists []; reflexivity|]. rewrite tree_events_elem. eauto. }
    rewrite events_cons, Htl. cbn [app]. rewrite once_wrong; auto using not_begins.
    eexists [], _. symmetry. unfold tapp at 1. simpl. symmetry. apply surjective_pairing.
  - apply proper_cons in HF as [Hx HF]. inversion Hx; subst. destruct (IH HF level rest t) as [C1 C2].
    change (events (Leaf ev :: F) ++ rest) with (ev :: events F ++ rest).
    rewrite (once_skip _ _ level) by (auto; now apply adjust_leaf). split.
    + intros ev' post E Hb. destruct (C1 ev' post E Hb) as (pre & rest' & ->).
      exists (ev :: pre), rest'. apply tapp_cons.
    + intros E. rewrite C2 by exact E. apply tapp_cons.
  - apply proper_cons in HF as [Hx HF]. assert (Proper kids) as Hkids by (inversion Hx; subst; auto).
    rewrite events_cons, tree_events_elem. cbn [app]. rewrite <- !app_assoc. cbn [app].
    rewrite (once_skip _ _ (Datatypes.S level)) by auto.
    destruct (IH1 Hkids (Datatypes.S level) (ClosingTag c :: events F ++ rest) t) as [A1 A2].
    destruct (IH2 HF level rest t) as [B1 B2].
    destruct evs1 as [|e1 evs1].
    + rewrite A2 by reflexivity. cbn [app]. destruct (matches m (ClosingTag c)) eqn:Ec.
      * split; [|discriminate]. intros ev post [= <- <-] Hb. rewrite once_wrong by auto.
        eexists (OpeningTag t0 a :: events kids), _. apply tapp_cons.
      * rewrite (once_skip _ _ level) by auto. split.
        -- intros ev post E Hb. destruct (B1 ev post E Hb) as (pre & rest' & ->).
           exists (OpeningTag t0 a :: events kids ++ ClosingTag c :: pre), rest'.
           rewrite !tapp_app. f_equal. f_equal. simpl. now rewrite <- app_assoc.
        -- intros E. rewrite B2 by exact E. rewrite !tapp_app. f_equal. f_equal. simpl. now rewrite <- app_assoc.
    + split; [|discriminate]. intros ev post E Hb. injection E as <- _.
      destruct (A1 e1 evs1 eq_refl Hb) as (pre & rest' & ->). exists (OpeningTag t0 a :: pre), rest'.
      apply tapp_cons.
Qed.
End MeetOnce.

Lemma meets_once_in direct m g F ev post : MeetsIn direct m F (ev :: post) -> Proper F -> ~ Begins ev ->
  exists pre rest', d_select_once m g direct 0 (events F) None =
    tapp (pre, None) (tapp (g ([], Some (wrong_match ev))) (rest', None)).
Proof.
  intros Hmeet HF Hb. destruct direct; simpl in Hmeet.
  - red in Hmeet. revert Hmeet. induction F as [|x F IH]; [discriminate|]. cbn [map List.filter].
    apply proper_cons in HF as [Hx HF]. destruct (matches m (start x)) eqn:E.
    + intros [= -> _].
      assert (exists tl, tree_events x = start x :: tl) as [tl Htl].
      { destruct x; [exists []; reflexivity|]. rewrite tree_events_elem. eauto. }
      rewrite events_cons, Htl. cbn [app]. rewrite once_wrong; auto using not_begins.
      eexists [], _. symmetry. unfold tapp at 1. simpl. symmetry. apply surjective_pairing.
    + intros H. destruct (IH HF H) as (pre & rest' & E2).
      exists (tree_events x ++ pre), rest'. rewrite events_cons, once_other by auto.
      rewrite E2. apply tapp_app.
  - destruct (proj1 (meets_once m g F _ Hmeet HF 0 [] None) ev post eq_refl Hb) as (pre & rest' & E).
    rewrite app_nil_r in E. eauto.
Qed.

Lemma wrong_select_once direct m F ev post p e : Proper F -> typed true p e ->
  ValidArgs [OSelectOnce direct (inl m) p] -> MeetsIn direct m F (ev :: post) -> ~ Begins ev ->
  exists err, Gives (events F) [OSelectOnce direct (inl m) p] (inr err).
Proof.
  intros HF Ht Hv Hmeet Hb.
  assert (Keeps (d_pipe p) true e) as Hk.
  { eapply keeps_pipe; eauto. apply valid_args_well. eapply once_builder_valid; eauto. }
  destruct (meets_once_in direct m (d_pipe p) F ev post Hmeet HF Hb) as (pre & rest' & E).
  destruct (snd (d_pipe p ([], Some (wrong_match ev)))) as [err|] eqn:E2.
  - exists err.
    eapply gives_iff; [apply good_template, well_nested_events, HF|eapply typed_select_once, Ht|exact Hv|].
    change (inr err = outcome (d_select_once m (d_pipe p) direct 0 (events F) None)).
    unfold outcome. rewrite E, tapp_snd_none by reflexivity. now rewrite (tapp_snd _ _ _ E2).
  - exfalso. eapply (proj2 (Hk _ (wrong_good (wrong_match ev)))); [discriminate|exact E2].
Qed.
Lemma wrong_select_once_error direct m F ev post p e : Proper F -> typed true p e ->
  ValidArgs [OSelectOnce direct (inl m) p] -> ElementSelectors p ->
  (forall o err, Occurs p o -> ~ SuppliesError o err) ->
  MeetsIn direct m F (ev :: post) -> ~ Begins ev ->
  Gives (events F) [OSelectOnce direct (inl m) p] (inr (wrong_match ev)).
Proof.
  intros HF Ht Hv Hs Hn Hmeet Hb.
  assert (WellP p) as Hw by (apply valid_args_well; eapply once_builder_valid; eauto).
  assert (Keeps (d_pipe p) true e) as Hk by (eapply keeps_pipe; eauto).
  destruct (meets_once_in direct m (d_pipe p) F ev post Hmeet HF Hb) as (pre & rest' & E).
  destruct (snd (d_pipe p ([], Some (wrong_match ev)))) as [err|] eqn:E2.
  - assert (err = wrong_match ev) as ->.
    { destruct (from_pipe p true e Ht Hw Hs _ err (wrong_good _) E2) as [[= <-]|(o & Ho & He)]; auto.
      exfalso. eapply Hn; eauto. }
    eapply gives_iff; [apply good_template, well_nested_events, HF|eapply typed_select_once, Ht|exact Hv|].
    change (inr (wrong_match ev) = outcome (d_select_once m (d_pipe p) direct 0 (events F) None)).
    unfold outcome. rewrite E, tapp_snd_none by reflexivity. now rewrite (tapp_snd _ _ _ E2).
  - exfalso. eapply (proj2 (Hk _ (wrong_good (wrong_match ev)))); [discriminate|exact E2].
Qed.

(** Internal errors are wrong matches. *)
Lemma internal_errors evs p e err : WellNested evs -> typed false p e -> ValidArgs p ->
  (forall o i, Occurs p o -> SuppliesError o i -> ~ Internal i) ->
  Gives evs p (inr err) -> Internal err ->
  exists o m ev, Occurs p o /\ op_selector o = Some (inl m) /\ matches m ev = true /\
    ~ Begins ev /\ err = wrong_match ev.
Proof.
  intros Hn Ht Hv Hs Hg Hi. destruct (errors_any evs p e err Hn Ht Hv Hg) as [(o & Ho & He)|H]; [|exact H].
  exfalso. eapply Hs; eauto.
Qed.

Lemma met_cases direct m F : exists evs, MeetsIn direct m F evs /\
  ((forall ev, In ev evs -> Begins ev) \/ exists ev, FirstWrong evs ev).
Proof.
  destruct (meets_in_exists direct m F) as [evs H]. exists evs. split; [exact H|]. clear H.
  induction evs as [|ev evs IH]; [left; intros ev []|].
  destruct (element_tag_start ev) eqn:E.
  - assert (Begins ev) as Hb by (unfold Begins; congruence). destruct IH as [IH|(ev' & pre & post & -> & H1 & H2)].
    + left. intros x [<-|Hx]; auto.
    + right. exists ev', (ev :: pre), post. split; [reflexivity|]. split; [|exact H2].
      intros x [<-|Hx]; auto.
  - right. exists ev, [], evs. split; [reflexivity|]. split; [intros x []|]. unfold Begins. congruence.
Qed.

Lemma select_negated : exists m F, Proper F /\
  ~ Gives (events F) [OSelect false (inl (SelCustom (fun ev => negb (matches m ev)))) (fun _ => [])]
      (inl (events F)).
Proof.
  set (t := Data (Encoded (StaticStr (lit "1")))).
  exists (SelTag (Ident (StaticStr (lit "p")))), [Leaf t].
  set (m := SelCustom _).
  assert (Hp : Proper [Leaf t]) by (intros x [<-|[]]; now constructor).
  split; [exact Hp|]. intros H.
  destruct (wrong_select false m [Leaf t] [t] t (fun _ => [])) as [err He].
  - exact Hp.
  - intros k. exists true. constructor.
  - apply valid_args_wrap; try reflexivity. intros q Hq. inversion Hq; subst.
    split; [|split; [|split]]; intros o; intros; exfalso;
      match goal with H : Occurs [] o |- _ => inversion H; contradiction end.
  - apply (Meets_match m (Leaf t)); [reflexivity|constructor].
  - exists [], []. split; [reflexivity|]. split; [intros x []|]. intros Hx. now apply Hx.
  - pose proof (gives_det _ _ _ _ H He). discriminate.
Qed.
