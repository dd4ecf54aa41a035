(** Predicates of trees that are kept by pipelines, in general. *)
From Coq Require Import String ZArith NArith.
From stdpp Require Import gmap.
From Verif Require Import Text Event Input Parse Selector Machine Template.
From Verif Require Import SpecText SpecAttr SpecParse SpecRender SpecTree SpecTransform SpecOps SpecSafe.
From Verif Require Import TextProofs AttrProofs AttrProofs2 ParseProofs ParseProofs6 ParseProofs7 ParseProofs8
  Trace TraceProofs PipelineProofs TreeProofs ReachProofs SelectionProofs OpProofs SafeProofs SafeProofs2.
Local Open Scope nat_scope.

Section keep.
(** [T]: the trees; [R r]: contents of a text element [r]; [P]: text that can be added to such
    contents; [C]: attribute commands. *)
Context (b : bool) (T : tree -> Prop) (R : str -> list event -> Prop) (P : list event -> Prop)
        (C : attr_cmd -> Prop).
Definition OkForest (F : list tree) : Prop := forall x, In x F -> T x.
Definition Ok (evs : list event) : Prop := exists F, OkForest F /\ evs = events F.
Context (T_proper : forall x, T x -> ProperTree x)
        (R_text : forall r evs, R r evs -> Forall TextEvent evs)
        (R_nil : forall r evs, R r evs -> R r [])
        (R_plain : forall r evs p, R r evs -> P p -> R r p)
        (R_app : forall r x y, R r x -> R r y -> R r (x ++ y))
        (P_ok : forall p, P p -> Ok p)
        (T_elem : forall t a kids c, T (Elem t a kids c) ->
           (OkForest kids /\ forall k, OkForest k -> T (Elem t a k c)) \/
           (b = true /\ exists r, R r (events kids) /\ forall k, R r (events k) -> T (Elem t a k c)))
        (T_self : forall t a, T (Leaf (SelfClosedTag t a)) -> T (Elem t a [] t))
        (T_void_attr : forall c t a, C c -> T (Leaf (VoidTag t a)) -> T (Leaf (VoidTag t (apply_attr c a))))
        (T_self_attr : forall c t a, C c -> T (Leaf (SelfClosedTag t a)) ->
           T (Leaf (SelfClosedTag t (apply_attr c a))))
        (T_elem_attr : forall c t a kids d, C c -> T (Elem t a kids d) -> T (Elem t (apply_attr c a) kids d)).

Lemma okf_nil : OkForest [].
Proof. intros x []. Qed.
Lemma okf_cons x F : OkForest (x :: F) <-> T x /\ OkForest F.
Proof.
  split.
  - intros H. split; [apply H; now left|]. intros y Hy. apply H. now right.
  - intros [H1 H2] y [<-|Hy]; auto.
Qed.
Lemma okf_app F G : OkForest (F ++ G) <-> OkForest F /\ OkForest G.
Proof.
  induction F as [|x F IH]; simpl.
  - split; [split; auto using okf_nil|tauto].
  - rewrite !okf_cons, IH. tauto.
Qed.
Lemma ok_nil : Ok [].
Proof. exists []. split; [apply okf_nil|reflexivity]. Qed.
Lemma ok_app x y : Ok x -> Ok y -> Ok (x ++ y).
Proof.
  intros (F & HF & ->) (G & HG & ->). exists (F ++ G). split; [now apply okf_app|]. now rewrite events_app.
Qed.
Lemma ok_tree x : T x -> Ok (tree_events x).
Proof.
  intros H. exists [x]. split; [|now rewrite events_single]. apply okf_cons. auto using okf_nil.
Qed.
Lemma ok_proper F : OkForest F -> Proper F.
Proof. intros H x Hx. apply T_proper. auto. Qed.
Lemma ok_well_nested evs : Ok evs -> WellNested evs.
Proof. intros (F & HF & ->). exists F. split; auto. now apply ok_proper. Qed.
Lemma text_not_whole r evs : R r evs -> ~ Whole evs.
Proof.
  intros H Hw. apply R_text in H. destruct evs as [|ev l]; [exact Hw|]. inversion H; subst. destruct ev; contradiction.
Qed.

Lemma ok_whole evs : Ok evs -> Whole evs -> exists x, T x /\ IsElement x /\ evs = tree_events x.
Proof.
  intros (F & HF & ->) Hw. destruct F as [|x F]; [destruct Hw|].
  apply okf_cons in HF as [Hx HF]. pose proof (T_proper _ Hx) as Hp.
  assert (IsElement x /\ F = []) as [Hi ->].
  { rewrite events_cons in Hw. destruct x as [ev|t a kids c].
    - simpl in Hw. assert (events F = [] -> F = []) as HnF.
      { destruct F as [|[] F]; [auto|discriminate|discriminate]. }
      destruct ev; simpl in Hw; try contradiction.
      + inversion Hp; subst. contradiction.
      + destruct (events F) eqn:E; [|contradiction]. split; [exact I|auto].
      + destruct (events F) eqn:E; [|contradiction]. split; [exact I|auto].
    - split; [exact I|]. rewrite tree_events_elem in Hw. cbn [app] in Hw. destruct Hw as (_ & k & d & E & _ & Hk).
      rewrite <- app_assoc in E. cbn [app] in E. inversion Hp; subst.
      destruct F as [|y F]; [reflexivity|]. exfalso. set (l := events (y :: F)) in *.
      assert (l <> []) as Hne by (unfold l; rewrite events_cons; destruct y; discriminate).
      destruct (exists_last Hne) as (l' & z & El). rewrite El in E.
      change (ClosingTag c :: l' ++ [z]) with ((ClosingTag c :: l') ++ [z]) in E. rewrite app_assoc in E.
      apply app_inj_tail in E as [E _]. rewrite <- E, nest_app, proper_nest in Hk by assumption. discriminate. }
  exists x. split; auto. split; auto. now rewrite events_single.
Qed.

(** [g] keeps templates and, if [i], contents of text elements. *)
Definition OKeeps (g : trace -> trace) (e i : bool) : Prop :=
  forall x y, Good e (x, None) -> g (x, None) = (y, None) ->
    (Ok x -> Ok y) /\ (i = true -> forall r, R r x -> R r y).

Lemma okeeps_comp f g e1 e2 e3 i : Keeps f e1 e2 -> Keeps g e2 e3 -> OKeeps f e1 i -> OKeeps g e2 i ->
  OKeeps (fun x => g (f x)) e1 i.
Proof.
  intros Kf Kg Rf Rg x y Hx E. destruct (Kf _ Hx) as [G1 _]. destruct (f (x, None)) as [z t] eqn:Ef.
  destruct t as [err|].
  - exfalso. apply (proj2 (Kg _ G1)); [discriminate|]. now rewrite E.
  - destruct (Rf x z Hx Ef) as [A1 A2]. destruct (Rg z y G1 E) as [B1 B2]. split; auto.
Qed.
Lemma okeeps_id e i : OKeeps (fun x => x) e i.
Proof. intros x y _ E. injection E as ->. auto. Qed.
Lemma okeeps_error e i err : OKeeps (fun _ => ([], Some err)) e i.
Proof. intros x y _ E. discriminate. Qed.

Lemma okeeps_remove e i : OKeeps d_remove e i.
Proof.
  intros x y _ E. injection E as <-. split; intros; [apply ok_nil|eapply R_nil; eauto].
Qed.
Definition ContentOk (i : bool) (c : content) : Prop :=
  forall evs, d_content c = (evs, None) -> if i then P evs else Ok evs.
Lemma content_ok_ok i c evs : ContentOk i c -> d_content c = (evs, None) -> Ok evs.
Proof. intros H E. specialize (H evs E). destruct i; [exact (P_ok _ H)|exact H]. Qed.
Lemma okeeps_prepend c e i : ContentOk i c -> OKeeps (fun x => tapp (d_content c) x) e i.
Proof.
  intros Hc x y _ E. destruct (d_content c) as [evs [err|]] eqn:Ec; [discriminate|]. injection E as <-. split.
  - apply ok_app. eapply content_ok_ok; eauto.
  - intros -> r Hr. specialize (Hc _ Ec). simpl in Hc.
    apply R_app; auto. now apply (R_plain r x).
Qed.
Lemma okeeps_append c e i : ContentOk i c -> OKeeps (fun x => tapp x (d_content c)) e i.
Proof.
  intros Hc x y _ E. destruct (d_content c) as [evs [err|]] eqn:Ec; [discriminate|]. injection E as <-. split.
  - intros Hx. apply ok_app; auto. eapply content_ok_ok; eauto.
  - intros -> r Hr. specialize (Hc _ Ec). apply R_app; auto. now apply (R_plain r x).
Qed.
Lemma okeeps_replace c e i : ContentOk i c -> OKeeps (fun x => tapp (d_content c) (d_remove x)) e i.
Proof.
  intros Hc x y _ E. destruct (d_content c) as [evs [err|]] eqn:Ec; [discriminate|].
  unfold tapp in E. simpl in E. injection E as <-. rewrite app_nil_r. split.
  - intros _. eapply content_ok_ok; eauto.
  - intros -> r Hr. specialize (Hc _ Ec). now apply (R_plain r x).
Qed.

Lemma okeeps_repeat gs e i : (forall g, In g gs -> OKeeps g e i) -> OKeeps (d_repeat gs) e i.
Proof.
  intros Hgs x y Hx E. apply repeat_ok in E as (rs & Hrs & ->). split.
  - intros Hr. induction Hrs as [|g r gs rs Hg _ IH]; [apply ok_nil|]. simpl.
    apply ok_app.
    + destruct (Hgs g (or_introl eq_refl) x r Hx Hg); auto.
    + apply IH. intros g' Hg'. apply Hgs. now right.
  - intros -> n Hr. induction Hrs as [|g r gs rs Hg _ IH]; [eapply R_nil; eauto|]. simpl.
    apply R_app.
    + destruct (Hgs g (or_introl eq_refl) x r Hx Hg); auto.
    + apply IH. intros g' Hg'. apply Hgs. now right.
Qed.

Lemma okeeps_contents g i : OKeeps g false b -> OKeeps (d_contents g) true i.
Proof.
  intros Hg x y Hx E. split; [|intros _ r Hr; destruct (text_not_whole _ _ Hr Hx)].
  intros Hr. destruct (ok_whole x Hr Hx) as (tr & Ht & Hi & ->).
  assert (forall t a kids c k, T (Elem t a kids c) -> g (events kids, None) = (k, None) ->
            Ok (OpeningTag t a :: k ++ [ClosingTag c])) as Helem.
  { intros t a kids c k Hel Ek. pose proof (T_proper _ Hel) as Hp. inversion Hp; subst.
    destruct (Hg (events kids) k) as [K1 K2]; auto. { now apply proper_nest. }
    destruct (T_elem _ _ _ _ Hel) as [[Hk Hb]|(Eb & r & Hk & Hb)].
    - destruct (K1 ltac:(eexists; eauto)) as (G & HG & ->).
      apply (ok_tree (Elem t a G c)). now apply Hb.
    - rewrite <- (events_leaves k). apply (ok_tree (Elem t a (map Leaf k) c)).
      apply Hb. rewrite events_leaves. apply K2; auto. }
  destruct tr as [ev|t a kids c].
  - destruct ev; try contradiction; try (pose proof (T_proper _ Ht) as Hpt; now inversion Hpt).
    + simpl tree_events in E. unfold d_contents in E.
      destruct (g ([], None)) as [k [err|]] eqn:Ek; [discriminate|]. unfold tapp in E. simpl in E. injection E as <-.
      apply (Helem tag attrs []); auto.
    + simpl in E. injection E as <-. now apply (ok_tree (Leaf (VoidTag tag attrs))).
  - rewrite tree_events_elem in E. unfold d_contents in E. rewrite removelast_last, last_last in E.
    destruct (g (events kids, None)) as [k [err|]] eqn:Ek; [discriminate|]. unfold tapp in E. simpl in E.
    injection E as <-. eapply Helem; eauto.
Qed.
Lemma okeeps_attr c i : C c -> OKeeps (d_attr c) true i.
Proof.
  intros Hc x y Hx E. split; [|intros _ r Hr; destruct (text_not_whole _ _ Hr Hx)].
  intros Hr. destruct (ok_whole x Hr Hx) as (tr & Ht & Hi & ->).
  destruct tr as [ev|t a kids d]; [destruct ev; try contradiction; try (pose proof (T_proper _ Ht) as Hpt; now inversion Hpt)|].
  - injection E as <-. apply (ok_tree (Leaf (SelfClosedTag tag _))). auto.
  - injection E as <-. apply (ok_tree (Leaf (VoidTag tag _))). auto.
  - injection E as <-. apply (ok_tree (Elem t (apply_attr c a) kids d)). auto.
Qed.

(** ** Selections *)

Lemma selects_ok m : ElementSelector m -> forall F xs rs out, Selects m F xs rs out -> OkForest F ->
  OkForest xs /\ (Forall Ok rs -> Ok out).
Proof.
  intros Hm F xs rs out H. induction H; intros HF.
  - split; [apply okf_nil|]. intros _. apply ok_nil.
  - apply okf_cons in HF as [Hx HF]. destruct (IHSelects HF) as [I1 I2]. split; [now apply okf_cons|].
    intros Hr. inversion Hr; subst. apply ok_app; auto.
  - apply okf_cons in HF as [Hx HF]. destruct (IHSelects HF) as [I1 I2]. split; auto.
    intros Hr. apply (ok_app [ev] out); auto. now apply (ok_tree (Leaf ev)).
  - apply okf_cons in HF as [Hx HF]. destruct (IHSelects2 HF) as [I1 I2].
    destruct (T_elem _ _ _ _ Hx) as [[Hk Hb]|(Eb & r & Hk & Hb)].
    + destruct (IHSelects1 ltac:(assumption)) as [J1 J2]. split; [now apply okf_app|].
      intros Hr. apply Forall_app in Hr as [Hr1 Hr2]. destruct (J2 Hr1) as (G & HG & ->).
      replace (OpeningTag t a :: events G ++ ClosingTag c :: out2) with (tree_events (Elem t a G c) ++ out2).
      * apply ok_app; auto. apply ok_tree. now apply Hb.
      * rewrite tree_events_elem. cbn [app]. now rewrite <- app_assoc.
    + destruct (selects_text m Hm _ _ _ _ H0 (R_text _ _ Hk)) as (-> & -> & ->). split; auto.
      intros Hr. simpl in Hr.
      replace (OpeningTag t a :: events kids ++ ClosingTag c :: out2) with (tree_events (Elem t a kids c) ++ out2).
      * apply ok_app; auto. now apply ok_tree.
      * rewrite tree_events_elem. cbn [app]. now rewrite <- app_assoc.
Qed.
Lemma selects_direct_ok m F xs rs out : SelectsDirect m F xs rs out -> OkForest F ->
  OkForest xs /\ (Forall Ok rs -> Ok out).
Proof.
  induction 1; intros HF.
  - split; [apply okf_nil|]. intros _. apply ok_nil.
  - apply okf_cons in HF as [Hx HF]. destruct (IHSelectsDirect HF) as [I1 I2]. split; [now apply okf_cons|].
    intros Hr. inversion Hr; subst. apply ok_app; auto.
  - apply okf_cons in HF as [Hx HF]. destruct (IHSelectsDirect HF) as [I1 I2]. split; auto.
    intros Hr. apply ok_app; auto. now apply ok_tree.
Qed.

Lemma okeeps_select m g direct e i : ElementSelector m -> (forall k, OKeeps (g k) true false) ->
  OKeeps (fun x => d_select (length (fst x)) m g direct 0 0 (fst x) (snd x)) e i.
Proof.
  intros Hm Hg x y Hx E. simpl in E. split.
  - intros (F & HF & ->). pose proof (ok_proper _ HF) as HP.
    destruct (selection_in_exists direct m F) as [xs Hxs].
    destruct (passes_or_fails g 0 xs) as [H|[err H]].
    + destruct (passes_turns g 0 xs H) as (rs & Hl & Ht). destruct (Hxs rs (eq_sym Hl)) as [out Ho].
      rewrite (selects_in_trace m g direct F xs rs out Hm Ho HP Ht) in E. injection E as <-.
      assert (OkForest xs /\ (Forall Ok rs -> Ok out)) as [I1 I2].
      { destruct direct; [eapply selects_direct_ok|eapply selects_ok]; eauto. }
      apply I2. apply Forall_forall. intros r Hr. apply elem_of_list_In, In_nth_error in Hr as [k Hk].
      destruct (nth_both rs xs k r (eq_sym Hl) Hk) as [z Hz].
      assert (In z xs) as Hin by (eapply nth_error_In; eauto).
      destruct (selects_in_element direct m F xs rs out z Hm Ho HP Hin) as [Pz Ez].
      destruct (Hg k (tree_events z) r) as [Rz _].
      * now apply good_element.
      * exact (Ht k z r Hz Hk).
      * apply Rz. apply ok_tree. auto.
    + exfalso. destruct (Hxs (repeat [] (length xs))) as [out Ho]; [apply repeat_length|].
      pose proof (selects_in_fails m g direct F xs _ out err Hm Ho HP H) as X. rewrite E in X. discriminate.
  - intros _ r Hr. pose proof (R_text _ _ Hr) as H1.
    assert (d_select (length x) m g direct 0 0 x None = (x, None)) as Ex.
    { apply (dsel_none m g direct None x [] [] 0 0); auto; [now apply text_nest|now apply text_no_match]. }
    rewrite Ex in E. injection E as <-. exact Hr.
Qed.

Lemma okeeps_select_once m g direct e i : ElementSelector m -> OKeeps g true false ->
  OKeeps (fun x => d_select_once m g direct 0 (fst x) (snd x)) e i.
Proof.
  intros Hm Hg x y Hx E. simpl in E.
  rewrite (once_select m g direct Hm (length x) x 0 []) in E; auto; [|now apply good_false in Hx].
  eapply (okeeps_select m (once_builder g) direct e i); eauto.
  intros [|k]; [exact Hg|apply okeeps_id].
Qed.

(** ** Pipelines *)

(** The attribute command of a call. *)
Definition op_command (o : op) : option attr_cmd :=
  match o with
  | OAddAttribute (inl n) v => Some (AAddAttribute n v)
  | OAddToAttribute (inl n) v sep => Some (AAddToAttribute n v sep)
  | OReplaceAttribute (inl n) v => Some (AReplaceAttribute n (Some v))
  | OSetAttribute (inl n) v => Some (ASetAttribute n v)
  | ORemoveAttribute (inl n) => Some (ARemoveAttribute n)
  | OAddClass (inl n) =>
      Some (AAddToAttribute class_ident (ident_into_value n) (enc_from_unencoded_static_str (lit " ")))
  | ORemoveClass (inl n) => Some (ARemoveClass n)
  | ORemoveId => Some (ARemoveAttribute id_ident)
  | OSetId (inl n) => Some (ASetAttribute id_ident (Some (ident_into_value n)))
  | _ => None
  end.
Record OkCall (i : bool) (o : op) : Prop := {
  ok_content : forall c, op_content o = Some c -> ContentOk (Into b i o) c;
  ok_command : forall c, op_command o = Some c -> C c;
  ok_selector : forall m, op_selector o = Some (inl m) -> ElementSelector m;
  ok_function : forall f x y, op_function o = Some f -> f x = inl y ->
    (Ok x -> Ok y) /\ (i = true -> forall r, R r x -> R r y)
}.
Definition OkP (i : bool) (p : pipeline) : Prop := forall k o, OccursIn b i p k o -> OkCall k o.
Lemma okp_here i p o : OkP i p -> In o p -> OkCall i o.
Proof. intros H Ho. apply H. now apply OccursIn_here. Qed.
Lemma okp_sub i p o j q : OkP i p -> In o p -> SubIn b i o j q -> OkP j q.
Proof. intros H Ho Hq k o' Ho'. apply H. eapply OccursIn_deeper; eauto. Qed.
Lemma okp_tail i o p : OkP i (o :: p) -> OkP i p.
Proof.
  intros H k o' Ho. apply H. inversion Ho; subst.
  - apply OccursIn_here. now right.
  - eapply OccursIn_deeper; eauto. now right.
Qed.

Lemma okeeps_pipe_of (p : pipeline) :
  (forall o, In o p -> forall e e' i, typed_op e o e' -> Well o -> OkP i [o] -> OKeeps (d_op o) e i) ->
  forall e e' i, typed e p e' -> WellP p -> OkP i p -> OKeeps (d_pipe p) e i.
Proof.
  induction p as [|o p IH]; intros Ho e e' i Ht Hw Hs; inversion Ht; subst.
  - apply okeeps_id.
  - apply wellp_cons in Hw as [Hw1 Hw2].
    apply (okeeps_comp (d_op o) (d_pipe p) e e2 e').
    + now apply keeps_op.
    + now apply keeps_pipe.
    + eapply Ho; eauto; [now left|]. intros k o' Ho'. apply Hs. inversion Ho'; subst.
      * apply OccursIn_here. now destruct H as [<-|[]]; left.
      * eapply OccursIn_deeper; eauto. now destruct H as [<-|[]]; left.
    + eapply IH; eauto using okp_tail. intros o' Ho'. apply Ho. now right.
Qed.
Lemma okeeps_named n c i : (forall m, n = inl m -> C (c m)) -> OKeeps (d_named n c) true i.
Proof.
  intros H. destruct n as [n|err]; [|apply okeeps_error]. apply okeeps_attr. auto.
Qed.
Lemma okeeps_as_template f e i :
  (forall x y, f x = inl y -> (Ok x -> Ok y) /\ (i = true -> forall r, R r x -> R r y)) ->
  OKeeps (d_as_template f) e i.
Proof.
  intros H x y _ E. unfold d_as_template in E. simpl in E. destruct (f x) as [z|err] eqn:Ef; [|discriminate].
  injection E as <-. auto.
Qed.

Lemma okeeps_op : forall o e e' i, typed_op e o e' -> Well o -> OkP i [o] -> OKeeps (d_op o) e i.
Proof.
  apply (op_sub_ind (fun o => forall e e' i, typed_op e o e' -> Well o -> OkP i [o] -> OKeeps (d_op o) e i)).
  intros o IH e e' i Ht Hw Hs.
  assert (forall p e e' j, Sub o p -> SubIn b i o j p -> typed e p e' -> OKeeps (d_pipe p) e j) as Hp.
  { intros p e1 e2 j Hsub Hin Hty. eapply okeeps_pipe_of; eauto.
    - eapply well_sub; eauto.
    - eapply okp_sub; eauto. now left. }
  clear IH. pose proof (well_args _ Hw) as Hargs.
  pose proof (okp_here i [o] o Hs (or_introl eq_refl)) as Hsafe.
  assert (forall bs e j, (forall p, In p bs -> Sub o p /\ SubIn b i o j p) ->
    Forall (fun p => exists e', typed e p e') bs ->
    OKeeps (d_repeat (map (fun p x => d_pipe p x) bs)) e j) as Hrep.
  { intros bs e0 j Hsub Hf. apply okeeps_repeat.
    intros g Hg. apply in_map_iff in Hg as (p & <- & Hin).
    rewrite Forall_forall in Hf. destruct (Hf p) as [e1 Hp1]; [now apply elem_of_list_In|].
    destruct (Hsub p Hin). eapply Hp; eauto. }
  pose proof (ok_content _ _ Hsafe) as Hcontent.
  pose proof (ok_selector _ _ Hsafe) as Hsel.
  pose proof (ok_command _ _ Hsafe) as Hcmd.
  inversion Ht; subst; try (apply okeeps_error).
  - change (OKeeps (d_pipe p) e i). eapply Hp; simpl; eauto.
  - apply okeeps_id.
  - apply okeeps_id.
  - change (OKeeps (d_pipe p) e i). eapply Hp; simpl; eauto.
  - apply (okeeps_as_template f). intros x y E. exact (ok_function _ _ Hsafe f x y eq_refl E).
  - destruct sel as [m|err]; [|apply okeeps_error]. apply (okeeps_select m (fun k => d_pipe (b0 k))); [now apply Hsel|].
    intros k. destruct (H k) as [e1 He1]. eapply Hp; simpl; eauto.
  - destruct sel as [m|err]; [|apply okeeps_error]. apply (okeeps_select_once m (d_pipe p)); [now apply Hsel|].
    eapply Hp; simpl; eauto.
  - apply okeeps_remove.
  - apply okeeps_prepend. now apply Hcontent.
  - apply okeeps_append. now apply Hcontent.
  - apply okeeps_replace. now apply Hcontent.
  - apply (Hrep bs); simpl; auto.
  - destruct bs as [|b0 bs].
    + change (OKeeps (d_pipe p) e i). eapply Hp; simpl; eauto.
    + apply (Hrep (b0 :: bs)); simpl; auto.
  - apply (okeeps_contents (d_pipe p)). eapply Hp; simpl; eauto.
  - destruct sel as [m|err]; [|apply okeeps_error].
    apply (okeeps_contents (fun x => d_select (length (fst x)) m (fun k => d_pipe (b0 k)) direct 0 0 (fst x) (snd x))).
    apply okeeps_select; [now apply Hsel|]. intros k. destruct (H k) as [e1 He1]. eapply Hp; simpl; eauto.
  - destruct sel as [m|err]; [|apply okeeps_error].
    apply (okeeps_contents (fun x => d_select_once m (d_pipe p) direct 0 (fst x) (snd x))).
    apply okeeps_select_once; [now apply Hsel|]. eapply Hp; simpl; eauto.
  - apply (okeeps_contents d_remove), okeeps_remove.
  - apply (okeeps_contents (fun x => tapp (d_content c) x)). apply okeeps_prepend. now apply Hcontent.
  - apply (okeeps_contents (fun x => tapp x (d_content c))). apply okeeps_append. now apply Hcontent.
  - apply (okeeps_contents (fun x => tapp (d_content c) (d_remove x))). apply okeeps_replace. now apply Hcontent.
  - apply (okeeps_contents (d_repeat (map (fun p x => d_pipe p x) bs))). apply (Hrep bs); simpl; auto.
  - destruct bs as [|b0 bs].
    + change (OKeeps (d_pipe p) true i). eapply Hp; simpl; eauto.
    + apply (okeeps_contents (d_repeat (map (fun p x => d_pipe p x) (b0 :: bs)))).
      apply (Hrep (b0 :: bs)); simpl; auto.
  - apply okeeps_named. intros n ->. now apply Hcmd.
  - apply okeeps_named. intros n ->. now apply Hcmd.
  - apply okeeps_named. intros n ->. now apply Hcmd.
  - apply okeeps_named. intros n ->. now apply Hcmd.
  - apply okeeps_named. intros n ->. now apply Hcmd.
  - apply okeeps_named. intros n ->. now apply Hcmd.
  - apply okeeps_named. intros n ->. now apply Hcmd.
  - apply okeeps_attr. now apply Hcmd.
  - apply okeeps_named. intros n ->. now apply Hcmd.
Qed.
Lemma okeeps_pipe p e e' i : typed e p e' -> WellP p -> OkP i p -> OKeeps (d_pipe p) e i.
Proof. apply okeeps_pipe_of. intros o _ e0 e1 j. apply okeeps_op. Qed.

Lemma keep_pipeline evs p e r : Ok evs -> typed false p e -> ValidArgs p -> OkP false p ->
  Gives evs p (inl r) -> Ok r.
Proof.
  intros Hr Ht Hv Hs Hg. pose proof (good_template _ (ok_well_nested _ Hr)) as Hgood.
  pose proof (gives_trace _ _ _ _ _ Hgood Ht Hv Hg) as E.
  destruct (okeeps_pipe p false e false Ht (valid_args_well _ Hv) Hs evs r Hgood E) as [H _]. auto.
Qed.

End keep.
