(** Selections of different elements commute. *)
From Coq Require Import String ZArith List Bool Lia.
From stdpp Require Import gmap.
From Verif Require Import Text Event Input Parse Selector Machine Template.
From Verif Require Import SpecText SpecAttr SpecParse SpecTree SpecTransform SpecOps SpecLaws SpecSelectLaws.
From Verif Require Import TextProofs AttrProofs AttrProofs2 Trace TraceProofs PipelineProofs TreeProofs.
From Verif Require Import ErrorProofs SelectionProofs OpProofs LawProofs LawProofs2 LawProofs3 SelectLawProofs.
Local Open Scope nat_scope.

(** ** Forests without matches *)

Lemma without_app m a b : Without_match m (a ++ b) <-> Without_match m a /\ Without_match m b.
Proof.
  unfold Without_match. split.
  - intros H. split; intros ev Hi; apply H, in_or_app; auto.
  - intros [H1 H2] ev Hi. apply in_app_or in Hi as []; auto.
Qed.
Lemma without_cons m ev b : Without_match m (ev :: b) <-> matches m ev = false /\ Without_match m b.
Proof.
  unfold Without_match. split.
  - intros H. split; [apply H; now left|]. intros x Hi. apply H. now right.
  - intros [H1 H2] x [<-|Hi]; auto.
Qed.
Lemma without_elem m t a kids c : Without_match m (tree_events (Elem t a kids c)) ->
  matches m (OpeningTag t a) = false /\ Without_match m (events kids).
Proof.
  rewrite tree_events_elem. intros H. apply without_cons in H as [H1 H].
  apply without_app in H as [H _]. auto.
Qed.
Lemma without_start m x : Without_match m (tree_events x) -> matches m (start x) = false.
Proof.
  destruct x as [ev|t a kids c]; intros H.
  - apply H. now left.
  - now apply without_elem in H as [H _].
Qed.

Lemma selects_prefix m : forall x, Without_match m (tree_events x) -> forall F xs rs out,
  Selects m F xs rs out -> Selects m (x :: F) xs rs (tree_events x ++ out).
Proof.
  apply (tree_rect' (fun x => Without_match m (tree_events x) -> forall F xs rs out,
    Selects m F xs rs out -> Selects m (x :: F) xs rs (tree_events x ++ out))).
  - intros ev H F xs rs out HS. apply Sel_leaf; auto. apply H. now left.
  - intros t a kids c IH H F xs rs out HS. apply without_elem in H as [H1 H2].
    rewrite tree_events_elem. simpl. rewrite <- app_assoc. simpl.
    apply (Sel_inside m t a kids c F [] [] (events kids) xs rs out); auto.
    clear HS. induction kids as [|k kids IHk]; [constructor|].
    rewrite events_cons in H2 |- *. apply without_app in H2 as [H2 H3].
    apply IH; [now left|exact H2|]. apply IHk; auto. intros x Hx. apply IH. now right.
Qed.
Lemma selects_in_prefix d m G F xs rs out : Without_match m (events G) -> SelectsIn d m F xs rs out ->
  SelectsIn d m (G ++ F) xs rs (events G ++ out).
Proof.
  intros H HS. induction G as [|x G IH]; [exact HS|]. rewrite events_cons in H.
  apply without_app in H as [H1 H2]. specialize (IH H2).
  change ((x :: G) ++ F) with (x :: (G ++ F)). rewrite events_cons, <- app_assoc.
  destruct d; [apply SelD_other; auto using without_start|now apply selects_prefix].
Qed.
Lemma selects_none m F xs rs out : Selects m F xs rs out -> Without_match m (events F) ->
  xs = [] /\ rs = [] /\ out = events F.
Proof.
  induction 1 as [|x F xs r rs out Hx H IH|ev F xs rs out Hx H IH
                 |t a kids c F xs1 rs1 out1 xs2 rs2 out2 Hx H1 IH1 H2 IH2]; intros Hw; auto;
    rewrite events_cons in Hw |- *; apply without_app in Hw as [Hw1 Hw2].
  - apply without_start in Hw1. congruence.
  - destruct (IH Hw2) as (-> & -> & ->). auto.
  - apply without_elem in Hw1 as [_ Hw1]. destruct (IH1 Hw1) as (-> & -> & ->).
    destruct (IH2 Hw2) as (-> & -> & ->). split; [|split]; auto.
    rewrite tree_events_elem. simpl. now rewrite <- app_assoc.
Qed.
Lemma selects_in_skip d m x F xs rs out : Without_match m (tree_events x) ->
  SelectsIn d m (x :: F) xs rs out ->
  exists out', out = tree_events x ++ out' /\ SelectsIn d m F xs rs out'.
Proof.
  intros H. destruct d; intros HS; simpl in HS; inversion HS; subst.
  - apply without_start in H. congruence.
  - eauto.
  - apply without_start in H. congruence.
  - eexists. split; [|eassumption]. reflexivity.
  - apply without_elem in H as [_ H].
    match goal with HK : Selects m kids _ _ _ |- _ => destruct (selects_none _ _ _ _ _ HK H) as (-> & -> & ->) end.
    eexists. split; [|eassumption]. rewrite tree_events_elem. simpl. now rewrite <- app_assoc.
Qed.

Lemma apart_tail m m' x F : Apart m m' (x :: F) -> Apart m m' F.
Proof. intros H path y Ha. apply (H path y). eapply at_weaken; eauto. intros z Hz. now right. Qed.
Lemma apart_kids m m' t a kids c F : Apart m m' (Elem t a kids c :: F) -> Apart m m' kids.
Proof. intros H path y Ha. apply (H (Elem t a kids c :: path) y). apply At_in; auto. now left. Qed.
Lemma apart_head m m' x F : Apart m m' (x :: F) -> matches m (start x) = true ->
  Without_match m' (tree_events x).
Proof. intros H. apply (H [] x). apply At_top. now left. Qed.

(** ** Both selections on one forest *)

Definition Clean (m : selector) (r : list event) : Prop :=
  exists G, Proper G /\ r = events G /\ Without_match m r.

Definition Both (d1 d2 : bool) (m1 m2 : selector) xs rs ys ss out1 out2 : Prop :=
  exists F1 F2 out, Proper F1 /\ Proper F2 /\ out1 = events F1 /\ out2 = events F2 /\
    SelectsIn d2 m2 F1 ys ss out /\ SelectsIn d1 m1 F2 xs rs out.

Lemma both_sym d1 d2 m1 m2 xs rs ys ss out1 out2 :
  Both d1 d2 m1 m2 xs rs ys ss out1 out2 -> Both d2 d1 m2 m1 ys ss xs rs out2 out1.
Proof. intros (F1 & F2 & out & H). exists F2, F1, out. tauto. Qed.

(** The first tree is selected by the first selection... *)
Lemma both_first d1 d2 m1 m2 x xs r rs ys ss out1 out2 : ProperTree x ->
  matches m1 (start x) = true -> Without_match m2 (tree_events x) -> Clean m2 r ->
  Both d1 d2 m1 m2 xs rs ys ss out1 out2 ->
  Both d1 d2 m1 m2 (x :: xs) (r :: rs) ys ss (r ++ out1) (tree_events x ++ out2).
Proof.
  intros Hx Hm Hw (G & HG & -> & HwG) (F1 & F2 & out & P1 & P2 & -> & -> & S1 & S2).
  exists (G ++ F1), (x :: F2), (events G ++ out). split; [now apply proper_app|].
  split; [now apply proper_cons|]. split; [now rewrite events_app|]. split; [reflexivity|].
  split; [now apply selects_in_prefix|]. destruct d1; [now apply SelD_match|now apply Sel_match].
Qed.
(** ... or by neither, on the top level. *)
Lemma both_other d1 d2 m1 m2 x xs rs ys ss out1 out2 : ProperTree x ->
  (forall F xs rs out, SelectsIn d1 m1 F xs rs out -> SelectsIn d1 m1 (x :: F) xs rs (tree_events x ++ out)) ->
  (forall F xs rs out, SelectsIn d2 m2 F xs rs out -> SelectsIn d2 m2 (x :: F) xs rs (tree_events x ++ out)) ->
  Both d1 d2 m1 m2 xs rs ys ss out1 out2 ->
  Both d1 d2 m1 m2 xs rs ys ss (tree_events x ++ out1) (tree_events x ++ out2).
Proof.
  intros Hx H1 H2 (F1 & F2 & out & P1 & P2 & -> & -> & S1 & S2).
  exists (x :: F1), (x :: F2), (tree_events x ++ out). split; [now apply proper_cons|].
  split; [now apply proper_cons|]. split; [reflexivity|]. split; [reflexivity|]. auto.
Qed.

Lemma both_direct m1 m2 : forall F, Proper F -> Apart m1 m2 F -> Apart m2 m1 F ->
  forall xs rs out1 ys ss out2, SelectsDirect m1 F xs rs out1 -> SelectsDirect m2 F ys ss out2 ->
  Forall (Clean m2) rs -> Forall (Clean m1) ss -> Both true true m1 m2 xs rs ys ss out1 out2.
Proof.
  induction F as [|x F IH]; intros HF A1 A2 xs rs out1 ys ss out2 S1 S2 C1 C2.
  - inversion S1; inversion S2; subst. exists [], [], []. repeat split; try apply proper_nil; constructor.
  - apply proper_cons in HF as [Hx HF].
    assert (forall xs rs out1 ys ss out2, SelectsDirect m1 F xs rs out1 -> SelectsDirect m2 F ys ss out2 ->
      Forall (Clean m2) rs -> Forall (Clean m1) ss -> Both true true m1 m2 xs rs ys ss out1 out2) as IH'
      by (apply IH; eauto using apart_tail). clear IH.
    inversion S1; subst.
    + assert (Without_match m2 (tree_events x)) as Hw by (eapply apart_head; eauto).
      destruct (selects_in_skip true m2 x F ys ss out2 Hw S2) as (o2 & -> & S2').
      inversion C1; subst. apply both_first; auto.
    + inversion S2; subst.
      * assert (Without_match m1 (tree_events x)) as Hw by (eapply apart_head; eauto).
        inversion C2; subst. apply both_sym, both_first; auto. apply both_sym. auto.
      * apply both_other; auto; intros; now apply SelD_other.
Qed.

Lemma both_mixed m1 m2 : forall F, Proper F -> Apart m1 m2 F -> Apart m2 m1 F ->
  forall xs rs out1 ys ss out2, SelectsDirect m1 F xs rs out1 -> Selects m2 F ys ss out2 ->
  Forall (Clean m2) rs -> Forall (Clean m1) ss -> Both true false m1 m2 xs rs ys ss out1 out2.
Proof.
  induction F as [|x F IH]; intros HF A1 A2 xs rs out1 ys ss out2 S1 S2 C1 C2.
  - inversion S1; inversion S2; subst. exists [], [], []. repeat split; try apply proper_nil; constructor.
  - apply proper_cons in HF as [Hx HF].
    assert (forall xs rs out1 ys ss out2, SelectsDirect m1 F xs rs out1 -> Selects m2 F ys ss out2 ->
      Forall (Clean m2) rs -> Forall (Clean m1) ss -> Both true false m1 m2 xs rs ys ss out1 out2) as IH'
      by (apply IH; eauto using apart_tail). clear IH.
    inversion S1; subst.
    + assert (Without_match m2 (tree_events x)) as Hw by (eapply apart_head; eauto).
      destruct (selects_in_skip false m2 x F ys ss out2 Hw S2) as (o2 & -> & S2').
      inversion C1; subst. apply both_first; auto.
    + inversion S2; subst.
      * assert (Without_match m1 (tree_events x)) as Hw by (eapply apart_head; eauto).
        inversion C2; subst. apply both_sym, both_first; auto. apply both_sym. auto.
      * change (ev :: out0) with (tree_events (Leaf ev) ++ out0).
        apply both_other; auto; intros; [now apply SelD_other|now apply Sel_leaf].
      * apply Forall_app in C2 as [C2 C2'].
        match goal with HK : Selects m2 F ?ys' ?ss' ?o2 |- _ =>
          destruct (IH' xs rs out ys' ss' o2) as (F1 & F2 & o & P1 & P2 & -> & -> & R1 & R2); auto end.
        inversion Hx; subst.
        match goal with HK : Selects m2 kids ?ys' ?ss' ?o2 |- _ =>
          assert (exists K, Proper K /\ o2 = events K) as (K & PK & ->) end.
        { assert (forall m F xs rs out, Selects m F xs rs out -> Proper F ->
            (forall r, In r rs -> exists G, Proper G /\ r = events G) -> exists K, Proper K /\ out = events K) as Hp.
          { clear. induction 1 as [|x F xs r rs out Hx H IH|ev F xs rs out Hx H IH
                 |t a kids c F xs1 rs1 out1 xs2 rs2 out2 Hx H1 IH1 H2 IH2]; intros HF Hr.
            - exists []. split; [apply proper_nil|reflexivity].
            - apply proper_cons in HF as [Px HF]. destruct (Hr r (or_introl eq_refl)) as (G & PG & ->).
              destruct IH as (K & PK & ->); auto; [intros; apply Hr; now right|].
              exists (G ++ K). split; [now apply proper_app|]. now rewrite events_app.
            - apply proper_cons in HF as [Px HF]. destruct IH as (K & PK & ->); auto.
              exists (Leaf ev :: K). split; [now apply proper_cons|reflexivity].
            - apply proper_cons in HF as [Px HF]. inversion Px; subst.
              destruct IH1 as (K & PK & ->); auto; [intros; apply Hr, in_or_app; now left|].
              destruct IH2 as (L & PL & ->); auto; [intros; apply Hr, in_or_app; now right|].
              exists (Elem t a K c :: L). split; [apply proper_cons; split; auto; now constructor|].
              rewrite events_cons, tree_events_elem. simpl. now rewrite <- app_assoc. }
          eapply Hp; eauto. intros r Hr. rewrite Forall_forall in C2.
          apply elem_of_list_In in Hr. destruct (C2 r Hr) as (G & PG & E & _). eauto. }
        exists (Elem t a kids c :: F1), (Elem t a K c :: F2), (tree_events (Elem t a K c) ++ o).
        assert (forall l, OpeningTag t a :: events K ++ ClosingTag c :: l = tree_events (Elem t a K c) ++ l) as Ek.
        { intros l. rewrite tree_events_elem. simpl. now rewrite <- app_assoc. }
        split; [now apply proper_cons|]. split; [apply proper_cons; split; auto; now constructor|].
        split; [reflexivity|]. split; [apply Ek|]. split.
        -- rewrite <- Ek. now apply Sel_inside.
        -- now apply SelD_other.
Qed.

Lemma both_deep m1 m2 F xs rs out1 : Selects m1 F xs rs out1 -> Proper F -> Apart m1 m2 F -> Apart m2 m1 F ->
  forall ys ss out2, Selects m2 F ys ss out2 ->
  Forall (Clean m2) rs -> Forall (Clean m1) ss -> Both false false m1 m2 xs rs ys ss out1 out2.
Proof.
  induction 1 as [|x F xs r rs out Hx H IH|ev F xs rs out Hx H IH
                 |t a kids c F xs1 rs1 out1 xs2 rs2 out2 Hx H1 IH1 H2 IH2];
    intros HF A1 A2 ys ss o2 S2 C1 C2.
  - inversion S2; subst. exists [], [], []. repeat split; try apply proper_nil; constructor.
  - apply proper_cons in HF as [Px HF].
    assert (Without_match m2 (tree_events x)) as Hw by (eapply apart_head; eauto).
    destruct (selects_in_skip false m2 x F ys ss o2 Hw S2) as (o & -> & S2').
    inversion C1; subst. apply both_first; auto. apply IH; eauto using apart_tail.
  - apply proper_cons in HF as [Px HF]. change (ev :: out) with (tree_events (Leaf ev) ++ out).
    inversion S2; subst.
    + assert (Without_match m1 (tree_events (Leaf ev))) as Hw by (eapply apart_head; eauto).
      inversion C2; subst. apply both_sym, both_first; auto. apply both_sym.
      apply IH; eauto using apart_tail.
    + match goal with |- Both _ _ _ _ _ _ _ _ _ (ev :: ?o) => change (ev :: o) with (tree_events (Leaf ev) ++ o) end.
      apply both_other; auto; [intros; now apply Sel_leaf..|]. apply IH; eauto using apart_tail.
  - apply proper_cons in HF as [Px HF]. inversion Px; subst.
    apply Forall_app in C1 as [C1 C1'].
    assert (forall K l, OpeningTag t a :: events K ++ ClosingTag c :: l = tree_events (Elem t a K c) ++ l) as Ek.
    { intros K l. rewrite tree_events_elem. simpl. now rewrite <- app_assoc. }
    inversion S2; subst.
    + assert (Without_match m1 (tree_events (Elem t a kids c))) as Hw by (eapply apart_head; eauto).
      apply without_elem in Hw as Hk. destruct Hk as [_ Hk].
      destruct (selects_none _ _ _ _ _ H1 Hk) as (-> & -> & ->). simpl. rewrite Ek.
      inversion C2; subst. apply both_sym, both_first; auto. apply both_sym.
      apply IH2; eauto using apart_tail.
    + apply Forall_app in C2 as [C2 C2'].
      match goal with HK : Selects m2 F ?ys' ?ss' ?o2 |- _ =>
        destruct (IH2 HF (apart_tail _ _ _ _ A1) (apart_tail _ _ _ _ A2) ys' ss' o2)
          as (F1 & F2 & o & P1 & P2 & -> & -> & R1 & R2); auto end.
      match goal with HK : Selects m2 kids ?ys' ?ss' ?o2 |- _ =>
        destruct (IH1 ltac:(assumption) (apart_kids _ _ _ _ _ _ _ A1) (apart_kids _ _ _ _ _ _ _ A2) ys' ss' o2)
          as (K1 & K2 & ko & Q1 & Q2 & -> & -> & T1 & T2); auto end.
      exists (Elem t a K1 c :: F1), (Elem t a K2 c :: F2), (OpeningTag t a :: ko ++ ClosingTag c :: o).
      split; [apply proper_cons; split; auto; now constructor|].
      split; [apply proper_cons; split; auto; now constructor|].
      split; [apply Ek|]. split; [apply Ek|]. split; now apply Sel_inside.
Qed.

Lemma both_in d1 d2 m1 m2 F xs rs out1 ys ss out2 : Proper F -> Apart m1 m2 F -> Apart m2 m1 F ->
  SelectsIn d1 m1 F xs rs out1 -> SelectsIn d2 m2 F ys ss out2 ->
  Forall (Clean m2) rs -> Forall (Clean m1) ss -> Both d1 d2 m1 m2 xs rs ys ss out1 out2.
Proof.
  intros HF A1 A2 S1 S2 C1 C2. destruct d1, d2; simpl in *.
  - eapply both_direct; eauto.
  - eapply both_mixed; eauto.
  - apply both_sym. eapply both_mixed; eauto.
  - eapply both_deep; eauto.
Qed.

(** ** Commuting selections *)

Lemma selected_at d m F xs rs out x : SelectsIn d m F xs rs out -> In x xs -> exists path, At F path x.
Proof.
  destruct d; intros H Hx; simpl in H.
  - exists []. apply At_top. clear -H Hx. induction H; simpl in *; [contradiction| |].
    + destruct Hx; auto.
    + auto.
  - apply (selected_iff _ _ _ _ _ H) in Hx as (_ & path & Ha & _). eauto.
Qed.
Lemma clean_results d m m' F xs rs out b : ElementSelector m -> Proper F -> Apart m m' F -> Avoids m m' b ->
  ElementBuilder b -> (forall k, ValidArgs (b k)) ->
  SelectsIn d m F xs rs out -> Builds_all b xs rs -> Forall (Clean m') rs.
Proof.
  intros Hm HF Ha Hav Hb Hv HS [Hl HB]. apply Forall_forall. intros r Hr.
  apply elem_of_list_In, In_nth_error in Hr as [k Hk].
  destruct (nth_both rs xs k r (eq_sym Hl) Hk) as [x Hx]. pose proof (nth_error_In _ _ Hx) as Hin.
  destruct (selects_in_element d m F xs _ _ x Hm HS HF Hin) as [P I].
  pose proof (selects_in_matching _ _ _ _ _ _ _ HS Hin) as M.
  destruct (selected_at _ _ _ _ _ _ _ HS Hin) as [path At1].
  specialize (HB k x r Hx Hk). destruct (Hb k) as [e He].
  assert (Selection e r) as Hsel.
  { eapply (gives_selection true (b k) e (tree_events x)); eauto. exists x; auto. }
  apply selection_well_nested in Hsel as (G & PG & E). exists G. split; [exact PG|]. split; [exact E|].
  eapply (Hav k x r); eauto.
Qed.

Lemma commute_one d1 d2 m1 m2 b1 b2 F out : ElementSelector m1 -> ElementSelector m2 -> Proper F ->
  ElementBuilder b1 -> ElementBuilder b2 -> (forall k, ValidArgs (b1 k)) -> (forall k, ValidArgs (b2 k)) ->
  Apart m1 m2 F -> Apart m2 m1 F -> Avoids m1 m2 b1 -> Avoids m2 m1 b2 ->
  Gives (events F) [OSelect d1 (inl m1) b1; OSelect d2 (inl m2) b2] (inl out) ->
  Gives (events F) [OSelect d2 (inl m2) b2; OSelect d1 (inl m1) b1] (inl out).
Proof.
  intros M1 M2 HF B1 B2 V1 V2 A1 A2 W1 W2 G.
  assert (Selection false (events F)) as Hsel by (exists F; auto).
  assert (ValidArgs [OSelect d1 (inl m1) b1]) as Hv1 by (apply valid_args_wrap; auto; intros q [k ->]; auto).
  assert (ValidArgs [OSelect d2 (inl m2) b2]) as Hv2 by (apply valid_args_wrap; auto; intros q [k ->]; auto).
  destruct (always_result false [OSelect d1 (inl m1) b1] false (events F)) as [[o1|err] G1];
    [now apply typed_select|exact Hv1|exact Hsel| |].
  2:{ exfalso. destruct (chain_failure false [OSelect d1 (inl m1) b1] [OSelect d2 (inl m2) b2] false (events F) err)
        as [err' G2]; auto using two_selects_typed, two_selects_valid.
      pose proof (gives_det _ _ _ _ G G2). discriminate. }
  apply (chain_result false [OSelect d1 (inl m1) b1] [OSelect d2 (inl m2) b2] false (events F) o1) in G;
    auto using two_selects_typed, two_selects_valid.
  destruct (select_success d1 m1 F b1 o1 M1 HF B1 Hv1 G1) as (xs & rs & S1 & R1).
  pose proof (clean_results _ _ _ _ _ _ _ _ M1 HF A1 W1 B1 V1 S1 R1) as C1.
  destruct (selection_in_exists d2 m2 F) as [ys Hys].
  destruct (Hys (repeat [] (length ys))) as [o0 S0]; [apply repeat_length|].
  destruct (both_in d1 d2 m1 m2 F xs rs o1 ys _ o0 HF A1 A2 S1 S0 C1) as (F1 & F0 & oo & P1 & P0 & -> & _ & T1 & _).
  { clear. induction (length ys); simpl; constructor; auto.
    exists []. split; [apply proper_nil|]. split; [reflexivity|]. intros ? []. }
  destruct (select_success d2 m2 F1 b2 out M2 P1 B2 Hv2 G) as (ys' & ss & S2 & R2).
  assert (ys' = ys) as -> by (eapply selection_in_unique; eauto).
  destruct (Hys ss) as [o2 S2']; [symmetry; apply R2|].
  pose proof (clean_results _ _ _ _ _ _ _ _ M2 HF A2 W2 B2 V2 S2' R2) as C2.
  destruct (both_in d1 d2 m1 m2 F xs rs _ ys ss o2 HF A1 A2 S1 S2' C1 C2)
    as (F1' & F2 & out' & P1' & P2 & E1 & -> & T1' & T2).
  assert (out' = out) as ->.
  { pose proof (select_result d2 m2 F1' ys ss out' b2 M2 P1' B2 Hv2 T1' R2) as G'. rewrite <- E1 in G'.
    pose proof (gives_det _ _ _ _ G G') as E. now injection E. }
  apply (chain_result false [OSelect d2 (inl m2) b2] [OSelect d1 (inl m1) b1] false (events F) (events F2));
    auto using two_selects_typed, two_selects_valid.
  - eapply select_result; eauto.
  - eapply select_result; eauto.
Qed.
Lemma selections_commute d1 d2 m1 m2 b1 b2 F : ElementSelector m1 -> ElementSelector m2 -> Proper F ->
  ElementBuilder b1 -> ElementBuilder b2 -> (forall k, ValidArgs (b1 k)) -> (forall k, ValidArgs (b2 k)) ->
  Apart m1 m2 F -> Apart m2 m1 F -> Avoids m1 m2 b1 -> Avoids m2 m1 b2 -> forall out,
  Gives (events F) [OSelect d1 (inl m1) b1; OSelect d2 (inl m2) b2] (inl out) <->
  Gives (events F) [OSelect d2 (inl m2) b2; OSelect d1 (inl m1) b1] (inl out).
Proof. intros. split; intros G; eapply commute_one in G; eauto. Qed.

Lemma selections_commute_error d1 d2 m1 m2 b1 b2 F : ElementSelector m1 -> ElementSelector m2 -> Proper F ->
  ElementBuilder b1 -> ElementBuilder b2 -> (forall k, ValidArgs (b1 k)) -> (forall k, ValidArgs (b2 k)) ->
  Apart m1 m2 F -> Apart m2 m1 F -> Avoids m1 m2 b1 -> Avoids m2 m1 b2 ->
  (forall k, ElementSelectors (b1 k)) -> (forall k o err, Occurs (b1 k) o -> ~ SuppliesError o err) -> forall r,
  Gives (events F) [OSelect d1 (inl m1) b1; OSelect d2 (inl m2) b2] r <->
  Gives (events F) [OSelect d2 (inl m2) b2; OSelect d1 (inl m1) b1] r.
Proof.
  intros M1 M2 HF B1 B2 V1 V2 A1 A2 W1 W2 E1 N1.
  assert (Selection false (events F)) as Hsel by (exists F; auto).
  assert (ValidArgs [OSelect d1 (inl m1) b1]) as Hv1 by (apply valid_args_wrap; auto; intros q [k ->]; auto).
  assert (ValidArgs [OSelect d2 (inl m2) b2]) as Hv2 by (apply valid_args_wrap; auto; intros q [k ->]; auto).
  assert (forall o, Occurs [OSelect d1 (inl m1) b1] o ->
            o = OSelect d1 (inl m1) b1 \/ exists k, Occurs (b1 k) o) as Hocc.
  { intros o Ho. remember [OSelect d1 (inl m1) b1] as p eqn:Ep. destruct Ho as [o p Hi|o p o' q Hi Hs Ho]; subst.
    - destruct Hi as [<-|[]]. auto.
    - destruct Hi as [<-|[]]. destruct Hs as [k ->]. eauto. }
  assert (ElementSelectors [OSelect d1 (inl m1) b1]) as Es.
  { intros o m Ho Hm. destruct (Hocc o Ho) as [->|[k Hk]]; [now injection Hm as <-|]. eapply E1; eauto. }
  assert (forall o err, Occurs [OSelect d1 (inl m1) b1] o -> ~ SuppliesError o err) as Ns.
  { intros o err Ho Hs. destruct (Hocc o Ho) as [->|[k Hk]]; [|now eapply N1; eauto].
    destruct Hs as [Hs|[(i & Hs & _)|[(c & Hs & _)|(f & x & Hs & _)]]]; discriminate Hs. }
  destruct (never_fails false [OSelect d1 (inl m1) b1] false (typed_select _ _ _ _ B1) Hv1 Es Ns (events F) Hsel)
    as [o1 G1].
  destruct (selection_in_exists d2 m2 F) as [ys Hys].
  destruct (select_case d2 m2 F ys b2 M2 HF B2 Hv2 Hys) as [(ss & o2 & S2 & R2 & G2)|(k & err & K & G2)].
  - assert (exists out, Gives (events F) [OSelect d2 (inl m2) b2; OSelect d1 (inl m1) b1] (inl out)) as [out G].
    { assert (Selection false o2) as Hs2.
      { eapply (OpProofs.gives_selection false [OSelect d2 (inl m2) b2] false (events F)); eauto.
        now apply typed_select. }
      destruct (never_fails false [OSelect d1 (inl m1) b1] false (typed_select _ _ _ _ B1) Hv1 Es Ns o2 Hs2)
        as [out Go].
      exists out. apply (chain_result false [OSelect d2 (inl m2) b2] [OSelect d1 (inl m1) b1] false (events F) o2);
        auto using two_selects_typed, two_selects_valid. }
    pose proof G as G'. apply (selections_commute d1 d2 m1 m2 b1 b2 F) in G'; auto.
    intros r. split; intros Gr.
    + now rewrite (gives_det _ _ _ _ Gr G').
    + now rewrite (gives_det _ _ _ _ Gr G).
  - assert (Gives (events F) [OSelect d2 (inl m2) b2; OSelect d1 (inl m1) b1] (inr err)) as Gb.
    { apply (chain_same_error false [OSelect d2 (inl m2) b2] [OSelect d1 (inl m1) b1] false);
        auto using two_selects_typed, two_selects_valid. }
    assert (Gives (events F) [OSelect d1 (inl m1) b1; OSelect d2 (inl m2) b2] (inr err)) as Ga.
    { apply (chain_result false [OSelect d1 (inl m1) b1] [OSelect d2 (inl m2) b2] false (events F) o1);
        auto using two_selects_typed, two_selects_valid.
      destruct (select_success d1 m1 F b1 o1 M1 HF B1 Hv1 G1) as (xs & rs & S1 & R1).
      pose proof (clean_results _ _ _ _ _ _ _ _ M1 HF A1 W1 B1 V1 S1 R1) as C1.
      destruct (Hys (repeat [] (length ys))) as [o0 S0]; [apply repeat_length|].
      destruct (both_in d1 d2 m1 m2 F xs rs o1 ys _ o0 HF A1 A2 S1 S0 C1) as (F1 & F0 & oo & P1 & P0 & -> & _ & T1 & _).
      { clear. induction (length ys); simpl; constructor; auto.
        exists []. split; [apply proper_nil|]. split; [reflexivity|]. intros ? []. }
      eapply select_failure; eauto. }
    intros r. split; intros Gr.
    + now rewrite (gives_det _ _ _ _ Gr Ga).
    + now rewrite (gives_det _ _ _ _ Gr Gb).
Qed.
