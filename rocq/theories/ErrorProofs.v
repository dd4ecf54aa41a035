(** Where the errors of a transformation come from (C16, C29). *)
From Coq Require Import String ZArith.
From stdpp Require Import gmap.
From Verif Require Import Text Event Input Parse Selector Machine Template StreamBase.
From Verif Require Import SpecText SpecAttr SpecParse SpecTree SpecTransform.
From Verif Require Import Trace TraceProofs PipelineProofs FuelProofs TreeProofs ReachProofs.
Local Open Scope nat_scope.

(** [g] reports only the errors of its input and those of [S]. *)
Definition From (g : trace -> trace) (e : bool) (S : stream_error -> Prop) : Prop :=
  forall x err, Good e x -> snd (g x) = Some err -> snd x = Some err \/ S err.

Lemma from_mono g e (S S' : stream_error -> Prop) : From g e S -> (forall err, S err -> S' err) -> From g e S'.
Proof. intros H HS x err Hx E. destruct (H x err Hx E); auto. Qed.
Lemma from_id e S : From (fun x => x) e S.
Proof. intros x err _ E. auto. Qed.
Lemma from_error e err (S : stream_error -> Prop) : S err -> From (fun _ => ([], Some err)) e S.
Proof. intros H x err' _ [= <-]. auto. Qed.
Lemma from_comp f g e e1 S : Keeps f e e1 -> From f e S -> From g e1 S -> From (fun x => g (f x)) e S.
Proof.
  intros Hk Hf Hg x err Hx E. destruct (Hg (f x) err) as [H|H]; auto. now apply Hk.
Qed.
Lemma tapp_error x y err : snd (tapp x y) = Some err ->
  snd x = Some err \/ (snd x = None /\ snd y = Some err).
Proof. unfold tapp. destruct (snd x); simpl; auto. Qed.

Lemma from_remove e S : From d_remove e S.
Proof. intros x err _ E. auto. Qed.
Lemma from_content c e (S : stream_error -> Prop) (g : trace -> trace) :
  (forall err, ContentGives c (inr err) -> S err) -> From g e S ->
  From (fun x => tapp (d_content c) (g x)) e S.
Proof.
  intros Hc Hg x err Hx E. apply tapp_error in E as [E|[_ E]]; [|auto].
  right. apply Hc. pose proof (content_gives c) as H. unfold outcome in H. now rewrite E in H.
Qed.
Lemma from_append c e (S : stream_error -> Prop) :
  (forall err, ContentGives c (inr err) -> S err) -> From (fun x => tapp x (d_content c)) e S.
Proof.
  intros Hc x err Hx E. apply tapp_error in E as [E|[_ E]]; [auto|].
  right. apply Hc. pose proof (content_gives c) as H. unfold outcome in H. now rewrite E in H.
Qed.
Lemma from_repeat gs e S : (forall g, In g gs -> From g e S) -> From (d_repeat gs) e S.
Proof.
  intros Hg x err Hx. unfold d_repeat. destruct (snd x) as [err0|] eqn:Ex; [simpl; auto|].
  induction gs as [|g gs IH]; simpl; [discriminate|].
  intros E. apply tapp_error in E as [E|[_ E]].
  - destruct (Hg g (or_introl eq_refl) x err Hx E) as [H|H]; [congruence|auto].
  - apply IH; auto. intros g' Hg'. apply Hg. now right.
Qed.
Lemma from_contents g S : From g false S -> From (d_contents g) true S.
Proof.
  intros Hg [evs t] err Hx. unfold Good in Hx. destruct evs as [|ev rest].
  { destruct t as [e0|]; simpl in *; [auto|contradiction]. }
  destruct ev; try (destruct t; contradiction).
  - destruct t as [e0|]; simpl in Hx.
    + intros E. unfold d_contents in E. apply tapp_error in E as [E|[_ E]]; [discriminate|].
      destruct Hx as [_ Hx]. destruct (Hg (rest, Some e0) err Hx E); auto.
    + destruct Hx as (_ & kids & c & -> & _ & Hk). unfold d_contents. rewrite removelast_last, last_last.
      intros E. apply tapp_error in E as [E|[_ E]]; [discriminate|].
      apply tapp_error in E as [E|[_ E]]; [|discriminate].
      destruct (Hg (kids, None) err Hk E); auto.
  - destruct t as [e0|]; simpl in Hx; [contradiction|]. unfold d_contents. intros E.
    apply tapp_error in E as [E|[_ E]]; [discriminate|].
    apply tapp_error in E as [E|[_ E]]; [|discriminate].
    destruct (Hg ([], None) err eq_refl E); auto.
  - discriminate.
Qed.
Lemma from_attr c S : From (d_attr c) true S.
Proof.
  intros [evs t] err Hx. unfold Good in Hx. destruct evs as [|ev rest].
  { destruct t as [e0|]; simpl in *; [auto|contradiction]. }
  destruct ev; try (destruct t; contradiction); simpl; auto; discriminate.
Qed.
Lemma from_named name c (S : stream_error -> Prop) :
  (forall i, name = inr i -> S (SEIdentifier i)) -> From (d_named name c) true S.
Proof.
  intros H. destruct name as [i|i]; simpl; [apply from_attr|]. apply from_error. auto.
Qed.

Lemma single_error ev rest t err : element_tag_start ev <> None ->
  snd (fst (d_single ev rest t)) = Some err -> t = Some err.
Proof.
  intros He. destruct ev; simpl in *; try congruence. destruct (d_until tag 0 rest) as [[]|]; simpl; congruence.
Qed.

Lemma select_error m g direct t (S : stream_error -> Prop) : ElementSelector m ->
  (forall k, From (g k) true S) -> (forall k, Keeps (g k) true false) ->
  forall n evs level calls st st' err,
  length evs <= n -> nest st evs = Some st' -> (t = None -> st' = []) -> level = length st ->
  snd (d_select n m g direct level calls evs t) = Some err -> t = Some err \/ S err.
Proof.
  intros Hm Hg Hk. induction n as [|n IH]; intros evs level calls st st' err Hlen Hn Ht Hlev.
  { simpl. auto. }
  destruct evs as [|ev rest]; simpl; [auto|].
  destruct (include direct level && matches m ev) eqn:Ei.
  - apply andb_true_iff in Ei as [_ Em]. apply Hm in Em.
    pose proof (single_good st ev rest st' t Hn Ht) as Hs.
    pose proof (single_error ev rest t err Em) as He.
    destruct (d_single ev rest t) as [el rest'] eqn:Ed. simpl in He. destruct Hs as [Hel Hrest].
    intros E. apply tapp_error in E as [E|[Eg E]].
    + destruct (Hg calls el err Hel E) as [H|H]; auto.
    + destruct Hrest as [(Happ & Htel & Hnest)|Htel].
      * eapply (IH rest' level); eauto.
        apply (f_equal (@length event)) in Happ. rewrite app_length in Happ. simpl in Happ, Hlen.
        destruct el as [[|e0 el] tel]; simpl in *; [|lia]. subst tel. contradiction.
      * exfalso. now apply (proj2 (Hk calls el Hel)).
  - simpl in Hn. destruct (nest1 st ev) as [st1|] eqn:En; [|discriminate].
    pose proof (nest1_adjust _ _ _ En) as Ha. rewrite <- Hlev in Ha. rewrite Ha.
    intros E. apply tapp_error in E as [E|[_ E]]; [discriminate|].
    eapply (IH rest (length st1)); eauto. simpl in Hlen. lia.
Qed.
Lemma from_select m g direct e (S : stream_error -> Prop) : ElementSelector m ->
  (forall k, From (g k) true S) -> (forall k, Keeps (g k) true false) ->
  From (fun x => d_select (length (fst x)) m g direct 0 0 (fst x) (snd x)) e S.
Proof.
  intros Hm Hg Hk x err Hx. apply good_false, good_fits in Hx. destruct Hx as (st' & H1 & H2).
  eapply select_error; eauto.
Qed.

Lemma select_once_error m g direct t (S : stream_error -> Prop) : ElementSelector m ->
  From g true S -> forall evs level st st' err,
  nest st evs = Some st' -> (t = None -> st' = []) -> level = length st ->
  snd (d_select_once m g direct level evs t) = Some err -> t = Some err \/ S err.
Proof.
  intros Hm Hg. induction evs as [|ev rest IH]; intros level st st' err Hn Ht Hlev; simpl; [auto|].
  destruct (include direct level && matches m ev) eqn:Ei.
  - apply andb_true_iff in Ei as [_ Em]. apply Hm in Em.
    pose proof (single_good st ev rest st' t Hn Ht) as Hs.
    pose proof (single_error ev rest t err Em) as He.
    destruct (d_single ev rest t) as [el rest'] eqn:Ed. simpl in He. destruct Hs as [Hel Hrest].
    intros E. apply tapp_error in E as [E|[Eg E]]; [|auto].
    destruct (Hg el err Hel E) as [H|H]; auto.
  - simpl in Hn. destruct (nest1 st ev) as [st1|] eqn:En; [|discriminate].
    pose proof (nest1_adjust _ _ _ En) as Ha. rewrite <- Hlev in Ha. rewrite Ha.
    intros E. apply tapp_error in E as [E|[_ E]]; [discriminate|].
    eapply (IH (length st1)); eauto.
Qed.
Lemma from_select_once m g direct e (S : stream_error -> Prop) : ElementSelector m ->
  From g true S -> From (fun x => d_select_once m g direct 0 (fst x) (snd x)) e S.
Proof.
  intros Hm Hg x err Hx. apply good_false, good_fits in Hx. destruct Hx as (st' & H1 & H2).
  eapply select_once_error; eauto.
Qed.

(** [err] is given to some call in [p]. *)
Definition Given (p : pipeline) (err : stream_error) : Prop :=
  exists o, Occurs p o /\ SuppliesError o err.

Lemma from_pipe_of (p : pipeline) (S : stream_error -> Prop) :
  (forall o, In o p -> forall e e', typed_op e o e' -> From (d_op o) e S) -> WellP p ->
  forall e e', typed e p e' -> From (d_pipe p) e S.
Proof.
  induction p as [|o p IH]; intros Ho Hw e e' Ht; inversion Ht; subst.
  - apply from_id.
  - apply wellp_cons in Hw as [Hw1 Hw2]. simpl.
    apply (from_comp (d_op o) (d_pipe p) e e2); [now apply keeps_op|eapply Ho; simpl; eauto|].
    eapply IH; eauto. intros o' Ho'. apply Ho. now right.
Qed.

Lemma from_op : forall o p e e', In o p -> typed_op e o e' -> WellP p -> ElementSelectors p ->
  From (d_op o) e (Given p).
Proof.
  apply (op_sub_ind (fun o => forall p e e', In o p -> typed_op e o e' -> WellP p ->
                      ElementSelectors p -> From (d_op o) e (Given p))).
  intros o IH p e e' Hin Ht Hw Hsel.
  assert (WellP p) as Hwp by exact Hw. specialize (Hw o Hin).
  assert (forall q e e', Sub o q -> typed e q e' -> From (d_pipe q) e (Given p)) as Hq.
  { intros q e1 e2 Hs Hty. eapply from_pipe_of; [|eapply well_sub; eauto|eauto].
    intros o' Ho' e3 e4 Hty'. eapply from_mono.
    - eapply (IH q Hs o' Ho' q); eauto; [eapply well_sub; eauto|].
      intros o2 m Ho2. apply Hsel. eapply Occurs_deeper; eauto.
    - intros err (o2 & Ho2 & He). exists o2. split; auto. eapply Occurs_deeper; eauto. }
  assert (forall q e e', Sub o q -> typed e q e' -> Keeps (d_pipe q) e e') as Hk.
  { intros q e1 e2 Hs Hty. eapply keeps_pipe; eauto. eapply well_sub; eauto. }
  assert (forall err, SuppliesError o err -> Given p err) as HS.
  { intros err He. exists o. split; auto. now apply Occurs_here. }
  assert (forall m, op_selector o = Some (inl m) -> ElementSelector m) as Hm.
  { intros m. apply Hsel. now apply Occurs_here. }
  clear IH.
  assert (forall bs e, (forall q, In q bs -> Sub o q) ->
    Forall (fun q => exists e', typed e q e') bs ->
    From (d_repeat (map (fun q x => d_pipe q x) bs)) e (Given p)) as Hrep.
  { intros bs e0 Hs Hf. apply from_repeat. intros g Hg. apply in_map_iff in Hg as (q & <- & Hq').
    rewrite Forall_forall in Hf. destruct (Hf q) as [e1 He1]; [now apply elem_of_list_In|].
    eapply Hq; eauto. }
  assert (forall c, op_content o = Some c -> forall err, ContentGives c (inr err) -> Given p err) as Hc.
  { intros c Hc err He. apply HS. right. right. left. eauto. }
  assert (forall i, op_name o = Some (inr i) -> Given p (SEIdentifier i)) as Hn.
  { intros i Hi. apply HS. right. left. eauto. }
  assert (forall err, op_selector o = Some (inr err) -> Given p err) as Hse.
  { intros err He. apply HS. now left. }
  inversion Ht; subst; try (apply from_named; intros i ->; now apply Hn).
  - apply (Hq p0 e e'); simpl; auto.
  - apply from_id.
  - apply from_id.
  - apply (Hq p0 e e'0); simpl; auto.
  - intros x err Hx. simpl. unfold d_as_template. destruct (snd x); [simpl; auto|].
    destruct (f (fst x)) eqn:Ef; simpl; [discriminate|]. intros [= <-]. right. apply HS.
    right. right. right. exists f, (fst x). auto.
  - destruct sel as [m|err]; [|apply from_error; now apply Hse].
    apply (from_select m (fun k => d_pipe (b k))); [now apply Hm|..].
    + intros k. destruct (H k) as [e1 He1]. eapply Hq; simpl; eauto.
    + intros k. destruct (H k) as [e1 He1]. eapply keeps_weaken. eapply Hk; simpl; eauto.
  - destruct sel as [m|err]; [|apply from_error; now apply Hse].
    apply (from_select_once m (d_pipe p0)); [now apply Hm|]. eapply Hq; simpl; eauto.
  - apply from_remove.
  - apply (from_content c e (Given p) (fun x => x)); [now apply Hc|apply from_id].
  - apply from_append. now apply Hc.
  - apply (from_content c e (Given p) d_remove); [now apply Hc|apply from_remove].
  - apply (Hrep bs); auto.
  - destruct bs as [|b0 bs].
    + apply (Hq p0 e e'0); simpl; auto.
    + apply (Hrep (b0 :: bs)); simpl; auto.
  - apply (from_contents (d_pipe p0)). eapply Hq; simpl; eauto.
  - destruct sel as [m|err]; [|apply from_error; now apply Hse].
    apply (from_contents (fun x => d_select (length (fst x)) m (fun k => d_pipe (b k)) direct 0 0 (fst x) (snd x))).
    apply from_select; [now apply Hm|..].
    + intros k. destruct (H k) as [e1 He1]. eapply Hq; simpl; eauto.
    + intros k. destruct (H k) as [e1 He1]. eapply keeps_weaken. eapply Hk; simpl; eauto.
  - destruct sel as [m|err]; [|apply from_error; now apply Hse].
    apply (from_contents (fun x => d_select_once m (d_pipe p0) direct 0 (fst x) (snd x))).
    apply from_select_once; [now apply Hm|]. eapply Hq; simpl; eauto.
  - apply (from_contents d_remove), from_remove.
  - apply (from_contents (fun x => tapp (d_content c) x)).
    apply (from_content c false (Given p) (fun x => x)); [now apply Hc|apply from_id].
  - apply (from_contents (fun x => tapp x (d_content c))). apply from_append. now apply Hc.
  - apply (from_contents (fun x => tapp (d_content c) (d_remove x))).
    apply (from_content c false (Given p) d_remove); [now apply Hc|apply from_remove].
  - apply (from_contents (d_repeat (map (fun p x => d_pipe p x) bs))). apply (Hrep bs); auto.
  - destruct bs as [|b0 bs].
    + apply (Hq p0 true e'0); simpl; auto.
    + apply (from_contents (d_repeat (map (fun p x => d_pipe p x) (b0 :: bs)))).
      apply (Hrep (b0 :: bs)); simpl; auto.
  - apply from_attr.
Qed.

Lemma from_pipe p e e' : typed e p e' -> WellP p -> ElementSelectors p -> From (d_pipe p) e (Given p).
Proof.
  intros Ht Hw Hs. eapply from_pipe_of; eauto. intros o Ho e1 e2 Hty. eapply from_op; eauto.
Qed.

Lemma errors_given evs p e err : WellNested evs -> typed false p e -> ValidArgs p ->
  ElementSelectors p -> Gives evs p (inr err) ->
  exists o, Occurs p o /\ SuppliesError o err.
Proof.
  intros Hn Ht Hv Hs Hg. pose proof (good_template _ Hn) as Hgood.
  pose proof (gives_trace_error _ _ _ _ _ Hgood Ht Hv Hg) as Htr.
  destruct (from_pipe p false e Ht (valid_args_well _ Hv) Hs _ err Hgood Htr) as [H|H]; [discriminate|exact H].
Qed.

(** ** Failing arguments *)

Lemma failing_op o e e' x : Failing o -> typed_op e o e' -> Good e x -> snd (d_op o x) <> None.
Proof.
  intros Hf Ht Hx. destruct Hf as [[err He]|[[i Hi]|(c & err & Ho & Hc)]].
  - destruct o; simpl in He; try discriminate; injection He as ->; simpl; discriminate.
  - destruct o; simpl in Hi; try discriminate; injection Hi as ->; simpl; discriminate.
  - apply content_gives_det in Hc. unfold outcome in Hc.
    destruct (snd (d_content c)) as [e0|] eqn:Es; [|discriminate].
    destruct Ho as [->|[->| ->]]; simpl; unfold tapp; rewrite ?Es; simpl; try congruence.
    destruct (snd x); simpl; congruence.
Qed.
Lemma keeps_error_pipe p e e' x : typed e p e' -> WellP p -> Good e x -> snd x <> None ->
  snd (d_pipe p x) <> None.
Proof. intros Ht Hw Hx. apply (keeps_pipe p e e' Ht Hw x Hx). Qed.

Lemma failing_pipe p o : AtTop p o -> Failing o ->
  forall e e' x, typed e p e' -> WellP p -> Good e x -> snd (d_pipe p x) <> None.
Proof.
  intros Hat Hf. induction Hat as [o p Hin|q p o Hin _ IH|first q other p o Hin _ IH].
  - induction p as [|o' p IHp]; [destruct Hin|]. intros e e' x Ht Hw Hx. inversion Ht; subst.
    apply wellp_cons in Hw as [Hw1 Hw2]. simpl.
    destruct (keeps_op _ _ _ H2 Hw1 x Hx) as [Hk1 Hk2].
    destruct Hin as [->|Hin].
    + eapply keeps_error_pipe; eauto. eapply failing_op; eauto.
    + eapply IHp; eauto.
  - specialize (IH Hf). induction p as [|o' p IHp]; [destruct Hin|]. intros e e' x Ht Hw Hx.
    inversion Ht; subst. apply wellp_cons in Hw as [Hw1 Hw2]. simpl.
    destruct (keeps_op _ _ _ H2 Hw1 x Hx) as [Hk1 Hk2].
    destruct Hin as [->|Hin].
    + eapply keeps_error_pipe; eauto. inversion H2; subst. change (snd (d_pipe q x) <> None).
      eapply IH; eauto. eapply well_sub; eauto. reflexivity.
    + eapply IHp; eauto.
  - specialize (IH Hf). induction p as [|o' p IHp]; [destruct Hin|]. intros e e' x Ht Hw Hx.
    inversion Ht; subst. apply wellp_cons in Hw as [Hw1 Hw2]. simpl.
    destruct (keeps_op _ _ _ H2 Hw1 x Hx) as [Hk1 Hk2].
    destruct Hin as [->|Hin].
    + eapply keeps_error_pipe; eauto. inversion H2; subst. change (snd (d_pipe q x) <> None).
      eapply IH; eauto. eapply well_sub; eauto. reflexivity.
    + eapply IHp; eauto.
Qed.

Lemma failing_fails evs p e o : WellNested evs -> typed false p e -> ValidArgs p ->
  AtTop p o -> Failing o -> exists err, Gives evs p (inr err).
Proof.
  intros Hn Ht Hv Hat Hf. pose proof (good_template _ Hn) as Hgood.
  pose proof (failing_pipe p o Hat Hf false e (evs, None) Ht (valid_args_well _ Hv) Hgood) as H.
  destruct (snd (d_pipe p (evs, None))) as [err|] eqn:E; [|congruence].
  exists err. eapply gives_iff; eauto. unfold outcome. now rewrite E.
Qed.

(** ** C16 *)

Lemma transform_total evs p e : WellNested evs -> typed false p e -> ValidArgs p ->
  exists r, Gives evs p r.
Proof.
  intros Hn Ht Hv. eexists. eapply gives_iff; eauto. now apply good_template.
Qed.
Lemma transform_no_panic evs p e : WellNested evs -> typed false p e -> ValidArgs p ->
  forall n, transform n evs p <> Panicked.
Proof. intros Hn Ht Hv. eapply no_panic; eauto. now apply good_template. Qed.
Lemma attributes_start ev attrs : event_attributes ev = Some attrs -> element_tag_start ev <> None.
Proof. destruct ev; simpl; discriminate. Qed.
Lemma library_selector m : (forall f, m <> SelCustom f) -> ElementSelector m.
Proof.
  intros H ev. unfold matches. destruct m; try (now exfalso; eapply H);
    try (destruct (event_attributes ev) eqn:E; [intros _; eapply attributes_start; eauto|discriminate]).
  - destruct (element_tag_start ev); discriminate.
  - unfold static_matches. destruct (element_tag_start ev); discriminate.
Qed.
