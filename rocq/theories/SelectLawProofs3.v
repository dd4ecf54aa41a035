(** What calls on an element keep: its name, and whether a selector matches. *)
From Coq Require Import String ZArith List Bool Lia.
From stdpp Require Import gmap.
From Verif Require Import Text Event Input Parse Selector Machine Template.
From Verif Require Import SpecText SpecAttr SpecParse SpecTree SpecTransform SpecOps SpecLaws SpecSelectLaws.
From Verif Require Import TextProofs AttrProofs AttrProofs2 Trace TraceProofs PipelineProofs TreeProofs.
From Verif Require Import ErrorProofs SelectionProofs OpProofs LawProofs LawProofs2 LawProofs3.
From Verif Require Import SelectLawProofs SelectLawProofs2.
Local Open Scope nat_scope.

(** ** The name *)

(** The events begin with a tag of this name, void if [v]; or there is none. *)
Definition Headed (t : ident) (v : bool) (evs : list event) : Prop :=
  match evs with
  | [] => True
  | OpeningTag t' _ :: _ | SelfClosedTag t' _ :: _ => t' = t /\ v = false
  | VoidTag t' _ :: _ => t' = t /\ v = true
  | _ => False
  end.

Lemma headed_contents t v g x : Headed t v (fst x) -> Headed t v (fst (d_contents g x)).
Proof.
  destruct x as [[|ev evs] err]; simpl; auto.
  destruct ev; simpl; try tauto; intros H; try (destruct err; exact H); exact H.
Qed.
Lemma headed_attr t v c x : Headed t v (fst x) -> Headed t v (fst (d_attr c x)).
Proof. destruct x as [[|ev evs] err]; simpl; auto. destruct ev; simpl; tauto. Qed.
Lemma headed_named t v n c x : Headed t v (fst x) -> Headed t v (fst (d_named n c x)).
Proof. destruct n; simpl; auto. apply headed_attr. Qed.

Lemma typed_from_element o e : typed_op e o true ->
  (forall p, Sub o p -> forall e, typed e p true -> e = true) -> e = true.
Proof.
  intros H IH. remember true as b eqn:E in H. destruct H; try discriminate; auto; subst.
  - apply (IH p); simpl; auto.
  - apply andb_true_iff in E as [-> _]. apply (IH p); simpl; auto.
Qed.
Lemma typed_pipe_element p : (forall o, In o p -> forall e, typed_op e o true -> e = true) ->
  forall e, typed e p true -> e = true.
Proof.
  induction p as [|o p IH]; intros H e Ht; inversion Ht; subst; auto.
  match goal with Hp : typed ?e2 p true |- _ => assert (e2 = true) as -> end.
  { apply IH; auto. intros; eapply H; eauto. now right. }
  eapply H; eauto. now left.
Qed.
Lemma typed_op_element : forall o e, typed_op e o true -> e = true.
Proof.
  apply (op_sub_ind (fun o => forall e, typed_op e o true -> e = true)). intros o IH e H.
  eapply typed_from_element; eauto. intros p Hp. apply typed_pipe_element. eauto.
Qed.

Lemma headed_pipe_of t v p : (forall o, In o p -> typed_op true o true -> forall x,
    Headed t v (fst x) -> Headed t v (fst (d_op o x))) ->
  typed true p true -> forall x, Headed t v (fst x) -> Headed t v (fst (d_pipe p x)).
Proof.
  intros H Ht. assert (forall q, (forall o, In o q -> In o p) -> typed true q true -> forall x,
    Headed t v (fst x) -> Headed t v (fst (d_pipe q x))) as Hq; [|apply Hq; auto].
  induction q as [|o q IH]; intros Hi Hq x Hx; [exact Hx|]. inversion Hq; subst.
  match goal with Hp : typed ?e2 q true |- _ => assert (e2 = true) as -> end.
  { eapply (typed_pipe_element q); eauto. intros. eapply typed_op_element; eauto. }
  simpl. apply IH; auto; [intros; apply Hi; now right|]. apply H; auto. apply Hi. now left.
Qed.
Lemma headed_op t v : forall o, typed_op true o true -> forall x,
  Headed t v (fst x) -> Headed t v (fst (d_op o x)).
Proof.
  apply (op_sub_ind (fun o => typed_op true o true -> forall x,
    Headed t v (fst x) -> Headed t v (fst (d_op o x)))).
  intros o IH Ht x Hx. remember true as b1 eqn:E1 in Ht at 1. remember true as b2 eqn:E2 in Ht.
  destruct Ht; try discriminate; subst; try (now apply headed_named); try exact I; auto.
  - change (Headed t v (fst (d_pipe p x))). apply headed_pipe_of; auto. intros o Ho. apply (IH p); simpl; auto.
  - apply andb_true_iff in E2 as [-> _].
    change (Headed t v (fst (d_pipe p x))). apply headed_pipe_of; auto. intros o Ho. apply (IH p); simpl; auto.
  - now apply headed_contents.
  - simpl. destruct sel; [now apply headed_contents|exact I].
  - simpl. destruct sel; [now apply headed_contents|exact I].
  - now apply headed_contents.
  - now apply headed_contents.
  - now apply headed_contents.
  - now apply headed_contents.
  - now apply headed_contents.
  - now apply headed_attr.
Qed.
Lemma headed_pipe t v p : typed true p true -> forall x, Headed t v (fst x) -> Headed t v (fst (d_pipe p x)).
Proof. apply headed_pipe_of. intros o _. apply headed_op. Qed.

Lemma headed_tree t v x : IsElement x -> Headed t v (tree_events x) <-> tag_of x = Some t /\ (v = true <-> IsVoid x).
Proof.
  unfold IsElement, IsVoid, tag_of. destruct v; destruct x as [[]|]; simpl; intros He; try contradiction;
    (split; [intros [H1 H2]; try discriminate H2; subst; intuition congruence
            |intros [[= ->] H]; try (exfalso; now apply H); auto]).
  discriminate (proj2 H I).
Qed.

Lemma element_kept p x out : typed true p true -> ValidArgs p -> ProperTree x -> IsElement x ->
  Gives (tree_events x) p (inl out) ->
  exists y, out = tree_events y /\ ProperTree y /\ IsElement y /\ tag_of y = tag_of x /\ (IsVoid y <-> IsVoid x).
Proof.
  intros Ht Hv Hp He Hg.
  assert (Selection true (tree_events x)) as Hs by (exists x; auto).
  destruct (OpProofs.gives_selection true p true (tree_events x) out Hs Ht Hv Hg) as (y & Py & Ey & ->).
  exists y. split; [reflexivity|]. split; [exact Py|]. split; [exact Ey|].
  pose proof (gives_trace _ _ _ _ _ (selection_good _ _ Hs) Ht Hv Hg) as Htr.
  assert (exists t v, Headed t v (tree_events x)) as (t & v & H).
  { clear -He. unfold IsElement in He. destruct x as [[]|]; simpl in *; try contradiction; eauto. }
  pose proof (headed_pipe t v p Ht (tree_events x, None) H) as H'. rewrite Htr in H'. simpl in H'.
  apply (headed_tree t v) in H as [H1 H2]; auto. apply (headed_tree t v) in H' as [H3 H4]; auto.
  split; [congruence|]. tauto.
Qed.
Lemma tag_stays t b : (forall k, typed true (b k) true) -> (forall k, ValidArgs (b k)) -> Stays (SelTag t) b.
Proof.
  intros Ht Hv k x out Hp He Hm Hg.
  destruct (element_kept (b k) x out (Ht k) (Hv k) Hp He Hg) as (y & E & Py & Ey & T & _).
  exists y. split; [exact E|]. split; [exact Py|]. split; [exact Ey|]. simpl in *.
  unfold tag_of in T. unfold IsElement in *.
  destruct (start x), (start y); simpl in *; try contradiction; try discriminate; congruence.
Qed.
Lemma fuse_tag e d t b1 b2 : (forall k, typed true (b1 k) true) -> ElementBuilder b2 ->
  (forall k, ValidArgs (b1 k)) -> (forall k, ValidArgs (b2 k)) ->
  Agree e [OSelect d (inl (SelTag t)) b1; OSelect d (inl (SelTag t)) b2]
          [OSelect d (inl (SelTag t)) (fun k => b1 k ++ b2 k)].
Proof.
  intros T1 T2 V1 V2. apply fuse_agree; auto; [apply library_selector; discriminate|]. now apply tag_stays.
Qed.

(** ** Matches *)

Lemma class_named a c : attribute_has_class a c = true -> ident_is_eq (a_name a) (lit "class") = true.
Proof. unfold attribute_has_class, attribute_classes. destruct (ident_is_eq _ _); auto; discriminate. Qed.
Lemma not_named n k a : ~ SameName n k -> ValidName (id_str (a_name a)) -> NamedAs n a ->
  ident_is_eq (a_name a) k = false.
Proof.
  intros Hn Hv Ha. destruct (ident_is_eq (a_name a) k) eqn:E; auto. exfalso.
  unfold ident_is_eq in E. apply identifier_eq_spec in E as (_ & _ & E).
  apply Hn. eapply same_name_trans; [exact Ha|exact E].
Qed.
Lemma without_class n l l' c : ~ SameName n (lit "class") -> ValidAttrs l -> Without n l l' ->
  has_class l c = has_class l' c.
Proof.
  intros Hn Hl H. induction H as [|a l l' Ha H IH|a l l' Ha H IH]; auto; simpl.
  - assert (attribute_has_class a c = false) as ->.
    { destruct (attribute_has_class a c) eqn:E; auto. apply class_named in E.
      rewrite (not_named n _ a Hn (Hl a (or_introl eq_refl)) Ha) in E. discriminate. }
    apply IH. intros b Hb. apply Hl. now right.
  - f_equal. apply IH. intros b Hb. apply Hl. now right.
Qed.
Lemma without_id n l l' c : ~ SameName n (lit "id") -> ValidAttrs l -> Without n l l' ->
  has_id l c = has_id l' c.
Proof.
  intros Hn Hl H. induction H as [|a l l' Ha H IH|a l l' Ha H IH]; auto; simpl.
  - rewrite (not_named n _ a Hn (Hl a (or_introl eq_refl)) Ha).
    apply IH. intros b Hb. apply Hl. now right.
  - rewrite IH; [reflexivity|]. intros b Hb. apply Hl. now right.
Qed.
Lemma command_class c l k : ValidAttrs l -> ValidName (id_str (cmd_name c)) -> ValidName (cmd_about c) ->
  ~ SameName (cmd_about c) (lit "class") -> ValidAttrs (apply_attr c l) ->
  has_class (apply_attr c l) k = has_class l k.
Proof.
  intros Hl Hn Ha Hc Hl'. pose proof (except_without l (Ident (StaticStr (cmd_about c))) Hl Ha) as W.
  simpl in W. rewrite (without_class _ _ _ k Hc Hl W). eapply without_class; eauto. now apply command_others.
Qed.
Lemma command_id c l k : ValidAttrs l -> ValidName (id_str (cmd_name c)) -> ValidName (cmd_about c) ->
  ~ SameName (cmd_about c) (lit "id") -> ValidAttrs (apply_attr c l) ->
  has_id (apply_attr c l) k = has_id l k.
Proof.
  intros Hl Hn Ha Hc Hl'. pose proof (except_without l (Ident (StaticStr (cmd_about c))) Hl Ha) as W.
  simpl in W. rewrite (without_id _ _ _ k Hc Hl W). eapply without_id; eauto. now apply command_others.
Qed.

Lemma forallb_same {A} (f g : A -> bool) l : (forall x, f x = g x) -> forallb f l = forallb g l.
Proof. intros H. induction l; simpl; congruence. Qed.

Lemma matches_reattr m x a y a' : Reattr x a y a' ->
  (match m with
   | SelId _ => forall k, has_id a' k = has_id a k
   | SelTag _ => True
   | SelClass _ | SelClasses _ => forall k, has_class a' k = has_class a k
   | SelStatic _ => (forall k, has_id a' k = has_id a k) /\ forall k, has_class a' k = has_class a k
   | SelCustom _ => False
   end) -> matches m (start y) = matches m (start x).
Proof.
  intros Hr Hm. destruct m; try contradiction; inversion Hr; subst; simpl; auto;
    try (apply forallb_same; intros; apply Hm);
    unfold static_matches; simpl; destruct Hm as [H1 H2];
    destruct s as [[st|] [si|] [sc|]]; simpl; rewrite ?H1;
    repeat match goal with |- context [if ?b then _ else _] => destruct b end; auto;
    apply forallb_same; intros; apply H2.
Qed.

Lemma reattr_attrs x a y a' : Reattr x a y a' -> ProperTree x -> ValidAttrs a.
Proof.
  intros Hr Hp. inversion Hr; subst; inversion Hp; subst; auto;
    match goal with H : ValidEvent _ |- _ => apply H end.
Qed.
Lemma reattr_element x a y a' : Reattr x a y a' -> IsElement y.
Proof. intros []; exact I. Qed.
Lemma reattr_start x a y a' : Reattr x a y a' ->
  exists rest, tree_events x = start x :: rest /\ tree_events y = start y :: rest.
Proof. intros []; simpl; eauto. Qed.

Lemma unrelated_matches m o n c x a y : About o n -> Unrelated m n -> op_command o = Some c ->
  (forall i, op_name o = Some (inl i) -> ValidName (id_str i)) ->
  ProperTree x -> ProperTree y -> Reattr x a y (apply_attr c a) -> matches m (start y) = matches m (start x).
Proof.
  intros Ha Hu Hc Hn Hp Hy Hr. destruct (about_command o n Ha) as (c' & Hc' & E).
  assert (c' = c) as -> by congruence. destruct (about_valid o n c Ha Hc Hn) as [V1 V2]. subst n.
  pose proof (reattr_attrs _ _ _ _ Hr Hp) as Hl.
  assert (ValidAttrs (apply_attr c a)) as Hl'.
  { inversion Hr; subst; inversion Hy; subst; auto; match goal with H : ValidEvent _ |- _ => apply H end. }
  eapply matches_reattr; eauto. destruct m; simpl in Hu; try contradiction; auto;
    try (split; intros k; [apply command_id|apply command_class]; tauto);
    intros k; first [now apply command_id|now apply command_class].
Qed.

Lemma unrelated_result p : (forall o, In o p -> exists n, About o n /\
    forall i, op_name o = Some (inl i) -> ValidName (id_str i)) ->
  typed true p true /\ ValidArgs p /\
  forall x, ProperTree x -> IsElement x ->
  exists y, Gives (tree_events x) p (inl (tree_events y)) /\ ProperTree y /\ IsElement y /\
    (exists rest, tree_events x = start x :: rest /\ tree_events y = start y :: rest) /\
    forall m, (forall o, In o p -> exists n, About o n /\ Unrelated m n) ->
      matches m (start y) = matches m (start x).
Proof.
  induction p as [|o p IH]; intros H.
  - split; [constructor|]. split; [apply empty_valid|]. intros x Hp He. exists x.
    split; [apply gives_nothing; now apply well_nested_tree|]. repeat (split; auto).
    destruct x; simpl; eauto.
  - destruct IH as (T & V & IH); [intros; apply H; now right|].
    destruct (H o (or_introl eq_refl)) as (n & Ha & Hn).
    destruct (about_command o n Ha) as (c & Hc & _).
    assert (typed true [o] true) as To by eauto using command_typed.
    assert (ValidArgs [o]) as Vo by eauto using command_valid.
    assert (typed true ([o] ++ p) true) as T' by (eapply typed_app; eauto).
    assert (ValidArgs ([o] ++ p)) as V' by now apply valid_args_app.
    split; [exact T'|]. split; [exact V'|]. intros x Hp He.
    destruct (reattr_exists x [] Hp He) as (a & y0 & Hr0).
    assert (exists y, Reattr x a y (apply_attr c a)) as [y Hr].
    { inversion Hr0; subst; eexists; constructor. }
    pose proof (command_result o c x a y Hc Hn Hp Hr) as G.
    destruct (reattr_start _ _ _ _ Hr) as (rest & E1 & E2).
    assert (ProperTree y) as Py.
    { pose proof (OpProofs.gives_selection true [o] true (tree_events x) (tree_events y)) as Hsel.
      destruct Hsel as (z & Pz & Ez & E); auto; [exists x; auto|].
      destruct (about_valid o n c Ha Hc Hn) as [V1 _].
      inversion Hr; subst; inversion Hp; subst.
      - constructor; auto. now apply apply_attr_valid.
      - constructor; auto. match goal with H : ValidEvent _ |- _ => destruct H end. split; auto.
        now apply apply_attr_valid.
      - constructor; auto. match goal with H : ValidEvent _ |- _ => destruct H end. split; auto.
        now apply apply_attr_valid. }
    destruct (IH y Py (reattr_element _ _ _ _ Hr)) as (z & G2 & Pz & Ez & (rest' & E3 & E4) & Hm).
    exists z. split; [|split; [exact Pz|split; [exact Ez|split]]].
    + apply (chain_result true [o] p true (tree_events x) (tree_events y)); auto. exists x; auto.
    + exists rest. split; auto. rewrite E4. f_equal. rewrite E2 in E3. now injection E3.
    + intros m Hu. rewrite Hm by (intros; apply Hu; now right).
      destruct (Hu o (or_introl eq_refl)) as (n' & Ha' & Hu').
      eapply unrelated_matches; eauto.
Qed.

Lemma unrelated_stays m b : (forall k, UnrelatedCalls m (b k)) -> Stays m b /\ Succeeds m b.
Proof.
  intros H. assert (forall k x, ProperTree x -> IsElement x ->
    exists y, Gives (tree_events x) (b k) (inl (tree_events y)) /\ ProperTree y /\ IsElement y /\
      matches m (start y) = matches m (start x)) as Hr.
  { intros k x Hp He. destruct (unrelated_result (b k)) as (_ & _ & Hx).
    - intros o Ho. destruct (H k o Ho) as (n & H1 & _ & H2). eauto.
    - destruct (Hx x Hp He) as (y & G & Py & Ey & _ & Hm). exists y. repeat (split; auto).
      apply Hm. intros o Ho. destruct (H k o Ho) as (n & H1 & H2 & _). eauto. }
  split.
  - intros k x out Hp He Hm Hg. destruct (Hr k x Hp He) as (y & G & Py & Ey & E). exists y.
    pose proof (gives_det _ _ _ _ Hg G) as E'. injection E' as ->. repeat (split; auto). congruence.
  - intros k x Hp He Hm. destruct (Hr k x Hp He) as (y & G & _). eauto.
Qed.
Lemma unrelated_avoids m m' b : (forall k, UnrelatedCalls m' (b k)) -> Avoids m m' b.
Proof.
  intros H k x out Hp He _ Hw Hg. destruct (unrelated_result (b k)) as (_ & _ & Hx).
  - intros o Ho. destruct (H k o Ho) as (n & H1 & _ & H2). eauto.
  - destruct (Hx x Hp He) as (y & G & Py & Ey & (rest & E1 & E2) & Hm).
    pose proof (gives_det _ _ _ _ Hg G) as E'. injection E' as ->.
    rewrite E1 in Hw. rewrite E2. apply without_cons in Hw as [Hw1 Hw2]. apply without_cons. split; auto.
    rewrite Hm; auto. intros o Ho. destruct (H k o Ho) as (n & H1 & H2 & _). eauto.
Qed.
Lemma unrelated_element m p : UnrelatedCalls m p -> typed true p true /\ ValidArgs p.
Proof.
  intros H. destruct (unrelated_result p) as (T & V & _); auto.
  intros o Ho. destruct (H o Ho) as (n & H1 & _ & H2). eauto.
Qed.
