(** Templates as trees: what [nest] accepts are the events of forests. *)
From Coq Require Import String ZArith.
From stdpp Require Import gmap.
From Verif Require Import Text Event Input Parse Selector Machine StreamBase.
From Verif Require Import SpecText SpecAttr SpecParse SpecTree SpecTransform TextProofs.
From Verif Require Import Trace TraceProofs PipelineProofs FuelProofs.
Local Open Scope nat_scope.

Lemma tree_rect' (P : tree -> Prop) :
  (forall ev, P (Leaf ev)) ->
  (forall t a kids c, (forall x, In x kids -> P x) -> P (Elem t a kids c)) -> forall x, P x.
Proof.
  intros Hl He. fix F 1. intros [ev|t a kids c]; [apply Hl|]. apply He.
  induction kids as [|y kids IH]; intros x; [intros []|].
  intros [<-|Hx]; [apply F|now apply IH].
Qed.

Lemma events_cons x F : events (x :: F) = tree_events x ++ events F.
Proof. reflexivity. Qed.
Lemma events_app F G : events (F ++ G) = events F ++ events G.
Proof. unfold events. apply flat_map_app. Qed.
Lemma events_single x : events [x] = tree_events x.
Proof. unfold events. simpl. apply app_nil_r. Qed.
Lemma tree_events_elem t a kids c :
  tree_events (Elem t a kids c) = OpeningTag t a :: events kids ++ [ClosingTag c].
Proof. reflexivity. Qed.

Lemma proper_nil : Proper [].
Proof. intros x []. Qed.
Lemma proper_cons x F : Proper (x :: F) <-> ProperTree x /\ Proper F.
Proof.
  split.
  - intros H. split; [apply H; now left|]. intros y Hy. apply H. now right.
  - intros [H1 H2] y [<-|Hy]; auto.
Qed.
Lemma proper_app F G : Proper (F ++ G) <-> Proper F /\ Proper G.
Proof.
  induction F as [|x F IH]; simpl.
  - split; [split; auto using proper_nil|tauto].
  - rewrite !proper_cons, IH. tauto.
Qed.

Lemma same_name_ascii a b : SameName a b -> ValidName a -> is_ascii b = true.
Proof.
  intros H [_ Hv]. unfold is_ascii. apply forallb_forall. intros c Hc.
  assert (forall x, In x a -> (x < 128)%N) as Ha by (intros x Hx; apply Hv, Hx). clear Hv.
  revert c Hc. induction H as [|x y a b Hxy _ IH]; [intros c []|].
  intros c [<-|Hc].
  - specialize (Ha x (or_introl eq_refl)). unfold char_is_ascii. apply N.ltb_lt.
    unfold SameLetter, char in *. lia.
  - apply IH; auto. intros z Hz. apply Ha. now right.
Qed.
Lemma close_eqb t c : ValidTag t -> SameName (id_str t) (id_str c) -> ident_eqb c t = true.
Proof.
  intros Ht Hs. apply identifier_eq_spec. split; [eapply same_name_ascii; eauto|].
  split; [now apply valid_ascii|now apply same_name_sym].
Qed.

Lemma proper_leaf_nest ev st : is_leaf ev -> ValidEvent ev -> nest1 st ev = Some st.
Proof.
  destruct ev; simpl; try contradiction; try reflexivity; intros _ H;
    apply valid_start_spec in H; now rewrite H.
Qed.
Lemma proper_tree_nest : forall x, ProperTree x -> forall st, nest st (tree_events x) = Some st.
Proof.
  apply (tree_rect' (fun x => ProperTree x -> forall st, nest st (tree_events x) = Some st)).
  - intros ev Hp st. inversion Hp; subst. simpl. now rewrite proper_leaf_nest.
  - intros t a kids c IH Hp st. inversion Hp; subst. rewrite tree_events_elem. simpl.
    rewrite (proj2 (valid_start_spec t a)) by auto. rewrite nest_app.
    assert (nest (t :: st) (events kids) = Some (t :: st)) as ->.
    { clear Hp. induction kids as [|y kids IHk]; [reflexivity|]. rewrite events_cons, nest_app.
      rewrite IH; [|now left|apply H6; now left]. apply IHk.
      - intros x Hx. apply IH. now right.
      - intros x Hx. apply H6. now right. }
    simpl. now rewrite close_eqb.
Qed.
Lemma proper_nest F st : Proper F -> nest st (events F) = Some st.
Proof.
  revert st. induction F as [|x F IH]; intros st H; [reflexivity|].
  apply proper_cons in H as [H1 H2]. rewrite events_cons, nest_app, proper_tree_nest; auto.
Qed.

Lemma nest_proper : forall n evs, length evs <= n -> nest [] evs = Some [] ->
  exists F, Proper F /\ evs = events F.
Proof.
  induction n as [|n IH]; intros evs Hlen H.
  { destruct evs; [|simpl in Hlen; lia]. exists []. split; [apply proper_nil|reflexivity]. }
  destruct evs as [|ev rest]. { exists []. split; [apply proper_nil|reflexivity]. }
  simpl in Hlen. assert (Hl : length rest <= n) by lia.
  assert (is_leaf ev -> ValidEvent ev -> nest [] rest = Some [] ->
          exists F, Proper F /\ ev :: rest = events F) as Hleaf.
  { intros H1 H2 H3. destruct (IH rest Hl H3) as (F & HF & ->). exists (Leaf ev :: F).
    split; [|reflexivity]. apply proper_cons. split; auto. now constructor. }
  simpl in H. destruct (nest1 [] ev) as [st|] eqn:E; [|discriminate].
  destruct ev; simpl in E; try discriminate;
    try (injection E as <-; apply Hleaf; simpl; auto; fail);
    destruct (valid_start tag attrs) eqn:Ev; try discriminate; injection E as <-.
  - pose proof (until_nest tag [] rest [] [] H) as Hu. simpl in Hu.
    destruct (d_until tag 0 rest) as [[el rest']|].
    + destruct Hu as (-> & kids & c & -> & Hc & Hk & Hr).
      rewrite !app_length in Hl. simpl in Hl.
      destruct (IH kids ltac:(lia) Hk) as (K & HK & ->).
      destruct (IH rest' ltac:(lia) Hr) as (F & HF & ->).
      exists (Elem tag attrs K c :: F). split.
      * apply proper_cons. split; auto. apply valid_start_spec in Ev as [H1 H2].
        constructor; auto. apply identifier_eq_spec in Hc as (_ & _ & Hc). now apply same_name_sym.
      * rewrite events_cons, tree_events_elem. simpl. now rewrite <- app_assoc.
    + destruct Hu as (inner & _ & Hu). destruct inner; discriminate.
  - apply valid_start_spec in Ev. apply Hleaf; simpl; auto.
  - apply valid_start_spec in Ev. apply Hleaf; simpl; auto.
Qed.

Lemma well_nested_iff evs : WellNested evs <-> nest [] evs = Some [].
Proof.
  split.
  - intros (F & HF & ->). now apply proper_nest.
  - intros H. now apply (nest_proper (length evs)).
Qed.
Lemma well_nested_events F : Proper F -> WellNested (events F).
Proof. intros H. now exists F. Qed.
Lemma well_nested_tree x : ProperTree x -> WellNested (tree_events x).
Proof.
  intros H. exists [x]. split; [|now rewrite events_single]. apply proper_cons. auto using proper_nil.
Qed.

Lemma element_whole x : ProperTree x -> IsElement x -> Whole (tree_events x).
Proof.
  intros H Hi. inversion H; subst.
  - destruct ev; try contradiction; simpl in *; now apply valid_start_spec.
  - rewrite tree_events_elem. split; [now apply valid_start_spec|]. exists (events kids), c.
    split; [reflexivity|]. split; [now apply close_eqb|]. now apply proper_nest.
Qed.
Lemma whole_element evs : Whole evs -> exists x, ProperTree x /\ IsElement x /\ evs = tree_events x.
Proof.
  destruct evs as [|[] rest]; try contradiction; simpl.
  - intros (Hr & kids & c & -> & Hc & Hk).
    destruct (nest_proper _ _ (Nat.le_refl _) Hk) as (K & HK & ->).
    exists (Elem tag attrs K c). split; [|split; [exact I|reflexivity]].
    apply valid_start_spec in Hr as [H1 H2].
    constructor; auto. apply identifier_eq_spec in Hc as (_ & _ & Hc). now apply same_name_sym.
  - destruct rest; [|contradiction]. intros Hv. exists (Leaf (SelfClosedTag tag attrs)).
    split; [|split; [exact I|reflexivity]]. constructor; [exact I|]. now apply valid_start_spec.
  - destruct rest; [|contradiction]. intros Hv. exists (Leaf (VoidTag tag attrs)).
    split; [|split; [exact I|reflexivity]]. constructor; [exact I|]. now apply valid_start_spec.
Qed.

Lemma good_template evs : WellNested evs -> Good false (evs, None).
Proof. intros H. now apply well_nested_iff. Qed.
Lemma good_element x : ProperTree x -> IsElement x -> Good true (tree_events x, None).
Proof. intros H1 H2. now apply element_whole. Qed.

(** ** Arguments *)

Lemma content_gives c : ContentGives c (outcome (d_content c)).
Proof.
  unfold outcome. revert c. fix F 1. intros [| | | | |? [e|]|[c|e]]; simpl; try constructor. exact (F c).
Qed.
Lemma content_gives_det c r : ContentGives c r -> r = outcome (d_content c).
Proof. induction 1; simpl; auto. Qed.
Lemma content_breaks c e : snd (d_content c) = Some e -> ContentBreaks c (fst (d_content c)).
Proof.
  revert c. fix F 1. intros [| | | | |? [e'|]|[c|e']]; simpl; try discriminate; try constructor; auto.
Qed.

Lemma valid_args_sub p o q : ValidArgs p -> In o p -> Sub o q -> ValidArgs q.
Proof.
  intros (H1 & H2 & H3 & H4) Ho Hq. split; [|split; [|split]].
  - intros o' i Ho'. apply H1. eapply Occurs_deeper; eauto.
  - intros o' evs Ho'. apply H2. eapply Occurs_deeper; eauto.
  - intros o' f x y Ho'. apply (H3 o' f x y). eapply Occurs_deeper; eauto.
  - intros o' evs Ho'. apply H4. eapply Occurs_deeper; eauto.
Qed.
Lemma valid_args_incl p q : ValidArgs p -> (forall o, In o q -> In o p) -> ValidArgs q.
Proof.
  assert (forall o, (forall o, In o q -> In o p) -> Occurs q o -> Occurs p o) as Hocc.
  { intros o Hi Ho. inversion Ho; subst.
    - apply Occurs_here. auto.
    - eapply Occurs_deeper; eauto. }
  intros (H1 & H2 & H3 & H4) Hi. split; [|split; [|split]]; intros; eauto.
  intros o' i Ho'. apply H1. auto.
Qed.
Lemma occurs_app p q o : Occurs (p ++ q) o <-> Occurs p o \/ Occurs q o.
Proof.
  split.
  - intros H. inversion H; subst.
    + apply in_app_or in H0 as [H0|H0]; [left|right]; now apply Occurs_here.
    + apply in_app_or in H0 as [H0|H0]; [left|right]; eapply Occurs_deeper; eauto.
  - intros [H|H]; (inversion H; subst; [apply Occurs_here|eapply Occurs_deeper; eauto]);
      apply in_or_app; auto.
Qed.
Lemma valid_args_app p q : ValidArgs p -> ValidArgs q -> ValidArgs (p ++ q).
Proof.
  intros (H1 & H2 & H3 & H7) (H4 & H5 & H6 & H8). split; [|split; [|split]].
  - intros o i Ho. apply occurs_app in Ho as [Ho|Ho]; eauto.
  - intros o evs Ho. apply occurs_app in Ho as [Ho|Ho]; eauto.
  - intros o f x y Ho. apply occurs_app in Ho as [Ho|Ho]; eauto.
  - intros o evs Ho. apply occurs_app in Ho as [Ho|Ho]; eauto.
Qed.

Lemma well_of (o : op) : forall p, ValidArgs p -> In o p -> Well o.
Proof.
  revert o. apply (op_sub_ind (fun o => forall p, ValidArgs p -> In o p -> Well o)).
  intros o IH p Hp Ho. constructor.
  - destruct Hp as (H1 & H2 & H3 & H4). specialize (H1 o). specialize (H2 o). specialize (H3 o).
    specialize (H4 o).
    assert (Occurs p o) as Hocc by now apply Occurs_here.
    assert (forall c, op_content o = Some c -> ContentOk c) as Hc.
    { intros c Hc. unfold ContentOk, Good. pose proof (content_gives c) as Hg. unfold outcome in Hg.
      destruct (snd (d_content c)) as [e|] eqn:Es.
      - destruct (H4 (fst (d_content c)) Hocc) as [rest Hw].
        { exists c. split; [exact Hc|]. now apply content_breaks with e. }
        apply well_nested_iff in Hw. rewrite nest_app in Hw.
        destruct (nest [] (fst (d_content c))) as [st|]; [eauto|discriminate].
      - apply well_nested_iff, H2; auto. exists c. auto. }
    destruct o; simpl in *; try exact I; try (apply Hc; reflexivity);
      try (intros i ->; apply H1; auto).
    intros evs evs' Hn E. apply well_nested_iff. apply (H3 f evs evs'); auto.
    now apply well_nested_iff.
  - intros q Hq o' Ho'. eapply (IH q Hq o' Ho' q); auto. eapply valid_args_sub; eauto.
Qed.
Lemma valid_args_well p : ValidArgs p -> WellP p.
Proof. intros H o Ho. eapply well_of; eauto. Qed.

(** ** Results *)

Lemma ev_gives evs p h r : Ev (fun n => transform n evs p) h r -> Gives evs p r.
Proof. intros [n H]. exists n, h. apply H. lia. Qed.
Lemma gives_det evs p r r' : Gives evs p r -> Gives evs p r' -> r = r'.
Proof. intros (n & h & H) (n' & h' & H'). eapply transform_det; eauto. Qed.

Lemma gives_iff evs p e e' r : Good e (evs, None) -> typed e p e' -> ValidArgs p ->
  (Gives evs p r <-> r = outcome (d_pipe p (evs, None))).
Proof.
  intros Hg Ht Hw. destruct (transform_trace evs p e e' Hg Ht (valid_args_well _ Hw)) as [h He].
  apply ev_gives in He. split.
  - intros H. eapply gives_det; eauto.
  - intros ->. exact He.
Qed.
Lemma gives_trace evs p e e' evs' : Good e (evs, None) -> typed e p e' -> ValidArgs p ->
  Gives evs p (inl evs') -> d_pipe p (evs, None) = (evs', None).
Proof.
  intros Hg Ht Hw H. eapply gives_iff in H; eauto. unfold outcome in H.
  destruct (d_pipe p (evs, None)) as [r [err|]]; simpl in H; congruence.
Qed.
Lemma gives_trace_error evs p e e' err : Good e (evs, None) -> typed e p e' -> ValidArgs p ->
  Gives evs p (inr err) -> snd (d_pipe p (evs, None)) = Some err.
Proof.
  intros Hg Ht Hw H. eapply gives_iff in H; eauto. unfold outcome in H.
  destruct (d_pipe p (evs, None)) as [r [err'|]]; simpl in H |- *; congruence.
Qed.
Lemma no_panic evs p e e' : Good e (evs, None) -> typed e p e' -> ValidArgs p ->
  forall n, transform n evs p <> Panicked.
Proof.
  intros Hg Ht Hw n Hp. destruct (transform_trace evs p e e' Hg Ht (valid_args_well _ Hw)) as [h [m He]].
  specialize (He (max n m) ltac:(lia)).
  pose proof (transform_panic n (max n m) evs p ltac:(lia) Hp). congruence.
Qed.
