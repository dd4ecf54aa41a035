(** Proofs about adding and removing classes and ids. *)
From Coq Require Import String List NArith Bool Lia.
Import ListNotations.
From Verif Require Import Text Event Machine SpecText SpecAttr TextProofs AttrProofs.
Open Scope N_scope.

Lemma space_space : Space 32.
Proof. right. right. now left. Qed.

Lemma valid_no_space c : ValidName c -> forall x, In x c -> ~ Space x.
Proof.
  intros [_ H] x Hx Hw. destruct (H x Hx) as (Ha & Hs & _).
  apply space_spec, is_whitespace_ascii in Hw; auto.
Qed.
Lemma valid_nonempty c : ValidName c -> c <> [].
Proof. intros (H & _). exact H. Qed.


Lemma named_cong n m a : SameName n m -> (NamedAs n a <-> NamedAs m a).
Proof.
  unfold NamedAs. intros H. split; intros H'.
  - eapply same_name_trans; [apply same_name_sym, H|exact H'].
  - eapply same_name_trans; eauto.
Qed.

(** ** add_class *)

Lemma word_extend w v c : ValidName c ->
  (IsWord w (v ++ lit " " ++ c) <-> IsWord w v \/ w = c).
Proof.
  intros Hc. change (lit " " ++ c) with (32 :: c). rewrite word_app_ws by apply space_space.
  rewrite (word_single w c); [reflexivity|now apply valid_no_space|now apply valid_nonempty].
Qed.

Lemma gives_class_not a c : ~ NamedAs (lit "class") a -> ~ GivesClass a c.
Proof. intros H (v & w & H' & _). auto. Qed.

Lemma has_class_app l l' c : HasClass (l ++ l') c <-> HasClass l c \/ HasClass l' c.
Proof.
  rewrite !has_class_gives. split.
  - intros (a & Ha & H). apply in_app_or in Ha. destruct Ha; [left|right]; eauto.
  - intros [(a & Ha & H)|(a & Ha & H)]; exists a; split; auto; apply in_or_app; auto.
Qed.
Lemma has_class_cons a l c : HasClass (a :: l) c <-> GivesClass a c \/ HasClass l c.
Proof.
  change (a :: l) with ([a] ++ l). rewrite has_class_app. rewrite (has_class_gives [a]).
  split; (intros [H|H]; [left|right]; auto).
  - destruct H as (b & [<-|[]] & H). auto.
  - exists a. simpl. auto.
Qed.

Lemma first_named l n : ValidAttrs l -> ValidName n ->
  (forall a, In a l -> ~ NamedAs n a) \/
  exists pre a post, l = pre ++ a :: post /\ NamedAs n a /\ (forall b, In b pre -> ~ NamedAs n b).
Proof.
  intros Hl Hn. induction l as [|a l IH]; [left; intros ? []|].
  apply valid_attrs_cons in Hl. destruct Hl as [Ha Hl].
  destruct (ident_is_eq (a_name a) n) eqn:E.
  - right. exists [], a, l. repeat split; [now apply ident_is_eq_named|intros ? []].
  - assert (Hna : ~ NamedAs n a).
    { rewrite <- (ident_is_eq_named n a Hn Ha). congruence. }
    destruct (IH Hl) as [H|(pre & b & post & -> & Hb & Hpre)].
    + left. intros b [<-|Hb]; auto.
    + right. exists (a :: pre), b, post. repeat split; auto. intros d [<-|Hd]; auto.
Qed.

Definition class_cmd (class c : ident) : attr_cmd :=
  AAddToAttribute class (ident_into_value c) (enc_from_unencoded_static_str (lit " ")).

Lemma sep_str : enc_str (enc_from_unencoded_static_str (lit " ")) = lit " ".
Proof. reflexivity. Qed.

Lemma class_ident i : static_ident (lit "class") = Some i -> id_str i = lit "class".
Proof. vm_compute. now intros [= <-]. Qed.
Lemma id_ident i : static_ident (lit "id") = Some i -> id_str i = lit "id".
Proof. vm_compute. now intros [= <-]. Qed.


Lemma gives_some a v c : NamedAs (lit "class") a -> a_value a = Some v ->
  (GivesClass a c <-> exists w, IsWord w (enc_str v) /\ SameName c w).
Proof.
  intros Hn Hv. split.
  - intros (u & w & _ & Hu & H). assert (u = v) as -> by congruence. eauto.
  - intros (w & Hw & Hs). exists v, w. auto.
Qed.

Lemma add_class_has l class c d : static_ident (lit "class") = Some class ->
  ValidAttrs l -> ValidName (id_str c) ->
  (HasClass (apply_attr (class_cmd class c) l) d <-> HasClass l d \/ SameName d (id_str c)).
Proof.
  intros Hclass Hl Hc. apply class_ident in Hclass.
  assert (Hv : ValidName (id_str class)) by (rewrite Hclass; apply class_valid).
  assert (Hcv : enc_str (ident_into_value c) = id_str c) by reflexivity.
  assert (Hcn : NamedAs (lit "class") (Attribute class (Some (ident_into_value c)))).
  { unfold NamedAs. simpl. rewrite Hclass. apply same_name_refl. }
  destruct (first_named l (id_str class) Hl Hv) as [H|(pre & a & post & -> & Ha & Hpre)].
  - unfold class_cmd. rewrite add_to_absent by auto. rewrite has_class_app, has_class_cons.
    rewrite (gives_some _ _ d Hcn eq_refl), Hcv.
    assert (Hnil : HasClass [] d <-> False).
    { split; [|tauto]. intros (x & _ & _ & [] & _). }
    rewrite Hnil. split; intros [H1|H1]; auto.
    + destruct H1 as [(w & Hw & Hs)|[]]. right.
      apply word_single in Hw; [now subst|now apply valid_no_space|now apply valid_nonempty].
    + right. left. exists (id_str c). split; auto.
      apply word_single; auto; [now apply valid_no_space|now apply valid_nonempty].
  - unfold class_cmd.
    destruct (add_to_present pre a post class (ident_into_value c)
                (enc_from_unencoded_static_str (lit " ")) Hl Hv Hpre Ha)
      as (a' & v' & -> & Hn' & Hv' & Ev').
    rewrite !has_class_app, !has_class_cons.
    assert (Hna' : NamedAs (lit "class") a').
    { unfold NamedAs. rewrite Hn'. rewrite <- Hclass. exact Ha. }
    assert (Hga : GivesClass a' d <-> GivesClass a d \/ SameName d (id_str c)).
    { rewrite (gives_some _ _ d Hna' Hv'), Ev', Hcv, sep_str.
      destruct (a_value a) as [old|] eqn:Eo.
      - rewrite Hclass in Ha. rewrite (gives_some _ _ d Ha Eo). split.
        + intros (w & Hw & Hs). apply word_extend in Hw; auto.
          destruct Hw as [Hw| ->]; eauto.
        + intros [(w & Hw & Hs)|Hs]; [exists w|exists (id_str c)]; split; auto;
            apply word_extend; auto.
      - assert (Hno : ~ GivesClass a d) by (intros (u & w & _ & Hu & _); congruence).
        split.
        + intros (w & Hw & Hs). right.
          apply word_single in Hw; [now subst|now apply valid_no_space|now apply valid_nonempty].
        + intros [?|Hs]; [tauto|]. exists (id_str c). split; auto.
          apply word_single; auto; [now apply valid_no_space|now apply valid_nonempty]. }
    rewrite Hga. tauto.
Qed.

Lemma without_app n l1 l1' l2 l2' : Without n l1 l1' -> Without n l2 l2' ->
  Without n (l1 ++ l2) (l1' ++ l2').
Proof. intros H. induction H; simpl; intros; [auto|apply W_drop|apply W_keep]; auto. Qed.
Lemma without_total n l : ValidAttrs l -> ValidName n -> exists l', Without n l l'.
Proof.
  intros Hl Hn. exists (attributes_except l (Ident (Actual n))).
  apply (except_without l (Ident (Actual n))); auto.
Qed.
Lemma without_cong n m l l' : SameName n m -> Without n l l' -> Without m l l'.
Proof.
  intros H. induction 1; [constructor|apply W_drop|apply W_keep]; auto;
    rewrite <- (named_cong n m); auto.
Qed.

(** [add_to] leaves the attributes of other names alone *)
Lemma add_to_others l n v sep : ValidAttrs l -> ValidName (id_str n) ->
  forall l', Without (id_str n) l l' ->
  Without (id_str n) (apply_attr (AAddToAttribute n v sep) l) l'.
Proof.
  intros Hl Hn. simpl.
  induction l as [|a l IH]; intros l' W; inversion W; subst; simpl.
  - apply W_drop; [apply same_name_refl|constructor].
  - apply valid_attrs_cons in Hl. destruct Hl as [Ha Hl].
    match goal with H : NamedAs _ a |- _ => pose proof H as Hna; apply (named_eqb n a Hn Ha) in H; rewrite H end.
    apply W_drop; auto.
  - apply valid_attrs_cons in Hl. destruct Hl as [Ha Hl].
    match goal with H : ~ NamedAs _ a |- _ => pose proof H as Hna; apply (named_eqb_false n a Hn Ha) in H; rewrite H end.
    apply W_keep; auto.
Qed.

Lemma add_class_others l class c l' : static_ident (lit "class") = Some class ->
  ValidAttrs l -> Without (lit "class") l l' ->
  Without (lit "class") (apply_attr (class_cmd class c) l) l'.
Proof.
  intros Hc Hl W. pose proof (class_ident _ Hc) as E. rewrite <- E in W |- *.
  apply add_to_others; auto. rewrite E. apply class_valid.
Qed.

(** ** remove_class *)

Definition join_words (acc : str) (ws : list str) : str :=
  fold_left (fun acc w => match acc with [] => w | _ => acc ++ 32 :: w end) ws acc.

Lemma without_loop_str ws name acc :
  enc_str (without_class_loop ws name acc) =
  join_words (enc_str acc) (filter (fun w => negb (identifier_eq name w)) ws).
Proof.
  revert acc; induction ws as [|w ws IH]; intros acc; simpl; auto.
  destruct (identifier_eq name w); simpl; auto.
  rewrite IH. f_equal. unfold enc_is_empty.
  assert (Hp : forall e v, enc_str (enc_push_encoded_str e v) = enc_str e ++ v) by reflexivity.
  rewrite Hp. destruct (enc_str acc) as [|x s] eqn:E; cbn [negb]; rewrite ?Hp, E; auto.
  now rewrite <- app_assoc.
Qed.

Lemma join_words_nonempty acc ws : acc <> [] -> join_words acc ws <> [].
Proof.
  revert acc; induction ws as [|w ws IH]; intros acc H; simpl; auto.
  apply IH. destruct acc; [congruence|discriminate].
Qed.

Lemma join_words_spec ws acc : Forall (fun w => w <> [] /\ forall c, In c w -> ~ Space c) ws ->
  forall w, IsWord w (join_words acc ws) <-> IsWord w acc \/ In w ws.
Proof.
  intros H. revert acc. induction H as [|x ws [Hx1 Hx2] H IH]; intros acc w; simpl.
  - tauto.
  - rewrite IH. destruct acc as [|y acc].
    + rewrite word_single by auto. pose proof (word_nil w). intuition.
    + rewrite (word_app_ws w (y :: acc) 32 x space_space), (word_single w x) by auto. intuition.
Qed.

Lemma is_word_good w s : IsWord w s -> w <> [] /\ forall c, In c w -> ~ Space c.
Proof. intros (_ & _ & _ & H1 & H2 & _). auto. Qed.

Lemma attribute_remove_class_spec a c : ValidName (id_str (a_name a)) -> ValidName c ->
  match attribute_remove_class a c with
  | Some a' => a_name a' = a_name a /\ (~ NamedAs (lit "class") a -> a' = a) /\
               (~ GivesClass a c -> a' = a) /\
               forall d, GivesClass a' d <-> GivesClass a d /\ ~ SameName c d
  | None => NamedAs (lit "class") a /\ (GivesClass a c) /\
            forall d, GivesClass a d -> SameName c d
  end.
Proof.
  intros Ha Hc. pose proof (valid_ascii _ Hc) as Hac.
  unfold attribute_remove_class, make_without.
  destruct (attribute_has_class a c) eqn:E; simpl.
  2:{ apply not_true_iff_false in E. rewrite attribute_has_class_spec in E by auto.
      repeat split; auto; try tauto.
      - intros Hs. destruct H as (v & w & Hn & Hv & Hw & Hd). apply E.
        exists v, w. repeat split; auto. eapply same_name_trans; eauto. }
  apply attribute_has_class_spec in E; auto.
  destruct (attribute_classes a) as [ws|] eqn:Ews.
  2:{ apply attribute_classes_none in Ews; auto. destruct E as (v & w & H1 & H2 & _).
      destruct Ews; congruence. }
  apply attribute_classes_some in Ews; auto. destruct Ews as (Hn & v & Hv & Hws).
  set (nv := without_class_loop ws c enc_new).
  assert (Hgood : Forall (fun w => w <> [] /\ forall x, In x w -> ~ Space x)
                    (filter (fun w => negb (identifier_eq c w)) ws)).
  { apply Forall_forall. intros w Hw. apply filter_In in Hw. eapply is_word_good, Hws, Hw. }
  assert (Hnv : forall w, IsWord w (enc_str nv) <-> IsWord w (enc_str v) /\ ~ SameName c w).
  { intros w. unfold nv. rewrite without_loop_str, join_words_spec by auto.
    rewrite filter_In, Hws, negb_true_iff. rewrite <- not_true_iff_false, identifier_eq_spec.
    simpl. pose proof (word_nil w). split.
    - intros [?|[H1 H2]]; [tauto|]. split; auto. intros Hs. apply H2.
      rewrite <- (same_name_ascii _ _ Hs). auto.
    - intros [H1 H2]. right. split; auto. tauto. }
  unfold enc_is_empty. fold nv. destruct (enc_str nv) as [|x s] eqn:Env.
  - repeat split; auto. intros d (v' & w & _ & Hv' & Hw & Hd).
    assert (v' = v) as -> by congruence.
    destruct (eq_ignore_ascii_case c w) eqn:Ec.
    + apply eq_ignore_spec in Ec. eapply same_name_trans; [exact Ec|now apply same_name_sym].
    + apply not_true_iff_false in Ec. rewrite eq_ignore_spec in Ec.
      exfalso. apply (word_nil w). apply Hnv. auto.
  - cbn [a_name]. split; [reflexivity|]. split; [tauto|]. split; [tauto|].
    intros d. rewrite <- Env in Hnv.
    assert (Hn' : NamedAs (lit "class") (Attribute (a_name a) (Some nv))) by exact Hn.
    rewrite (gives_some _ nv d Hn' eq_refl), (gives_some a v d Hn Hv). split.
    + intros (w & Hw & Hs). apply Hnv in Hw. destruct Hw as [Hw1 Hw2]. split; eauto.
      intros Hcd. apply Hw2. eapply same_name_trans; eauto.
    + intros [(w & Hw & Hs) Hcd]. exists w. split; auto. apply Hnv. split; auto.
      intros Hcw. apply Hcd. eapply same_name_trans; [exact Hcw|now apply same_name_sym].
Qed.

Lemma remove_loop_spec l c : ValidAttrs l -> ValidName c ->
  (forall d, HasClass (remove_class_loop l c) d <-> HasClass l d /\ ~ SameName c d) /\
  (forall l', Without (lit "class") l l' -> Without (lit "class") (remove_class_loop l c) l').
Proof.
  intros Hl Hc. induction l as [|a l IH]; simpl.
  - split; auto. intros d. split; [|tauto]. intros (a & _ & _ & [] & _).
  - apply valid_attrs_cons in Hl. destruct Hl as [Ha Hl]. destruct (IH Hl) as [IH1 IH2].
    pose proof (attribute_remove_class_spec a c Ha Hc) as HS.
    destruct (attribute_remove_class a c) as [a'|].
    + destruct HS as (H1 & H2 & _ & H3). split.
      * intros d. rewrite !has_class_cons, IH1, H3. tauto.
      * intros l' W. inversion W; subst.
        -- apply W_drop; auto. unfold NamedAs. rewrite H1. auto.
        -- rewrite H2 by auto. apply W_keep; auto.
    + destruct HS as (H1 & H2 & H3). split.
      * intros d. rewrite has_class_cons, IH1. pose proof (H3 d). tauto.
      * intros l' W. inversion W; subst; [auto|tauto].
Qed.

Lemma remove_class_has l c d : ValidAttrs l -> ValidName (id_str c) ->
  (HasClass (apply_attr (ARemoveClass c) l) d <-> HasClass l d /\ ~ SameName (id_str c) d).
Proof.
  intros Hl Hc. simpl. unfold remove_class.
  destruct (has_class l (id_str c)) eqn:E; [now apply remove_loop_spec|].
  apply not_true_iff_false in E. rewrite has_class_spec in E by (auto; now apply valid_ascii).
  split; [|tauto]. intros H. split; auto. intros Hs. apply E.
  destruct H as (a & v & w & H1 & H2 & H3 & H4 & H5). exists a, v, w. repeat split; auto.
  eapply same_name_trans; eauto.
Qed.
Lemma remove_class_others l c l' : ValidAttrs l -> ValidName (id_str c) ->
  Without (lit "class") l l' -> Without (lit "class") (apply_attr (ARemoveClass c) l) l'.
Proof.
  intros Hl Hc W. simpl. unfold remove_class.
  destruct (has_class l (id_str c)); auto. apply remove_loop_spec; auto.
Qed.
(** nothing is rewritten if the class is absent *)
Lemma remove_class_absent l c : ValidAttrs l -> ValidName (id_str c) ->
  ~ HasClass l (id_str c) -> apply_attr (ARemoveClass c) l = l.
Proof.
  intros Hl Hc H. simpl. unfold remove_class.
  rewrite <- (has_class_spec l _ Hl (valid_ascii _ Hc)) in H.
  apply not_true_iff_false in H. now rewrite H.
Qed.

(** ** Ids *)

Lemma without_has_id l l' i : Without (lit "id") l l' -> ~ HasId l' i.
Proof.
  intros W (a & v & Ha & Hn & _). apply (without_in _ _ _ W) in Ha. tauto.
Qed.
Lemma without_idem n l l' : Without n l l' -> Without n l' l'.
Proof. intros W. apply without_none. intros a Ha. apply (without_in _ _ _ W) in Ha. tauto. Qed.

Definition set_id_cmd (id i : ident) : attr_cmd := ASetAttribute id (Some (ident_into_value i)).

Lemma set_id_has l id i j : static_ident (lit "id") = Some id -> ValidAttrs l ->
  (HasId (apply_attr (set_id_cmd id i) l) j <-> SameName j (id_str i)).
Proof.
  intros Hid Hl. apply id_ident in Hid.
  assert (Hv : ValidName (id_str id)) by (rewrite Hid; apply id_valid).
  destruct (set_spec l id (Some (ident_into_value i)) Hl Hv) as (l' & W & E).
  unfold set_id_cmd. rewrite E. rewrite Hid in W. split.
  - intros (a & v & Ha & Hn & Hav & Hs). apply in_app_or in Ha.
    destruct Ha as [Ha|[<-|[]]].
    + exfalso. apply (without_in _ _ _ W) in Ha. tauto.
    + simpl in Hav. now injection Hav as <-.
  - intros Hs. eexists _, _. split; [apply in_or_app; right; left; reflexivity|].
    split; [|split; [reflexivity|exact Hs]]. unfold NamedAs. simpl. rewrite Hid. apply same_name_refl.
Qed.
Lemma set_id_others l id i l' : static_ident (lit "id") = Some id -> ValidAttrs l ->
  Without (lit "id") l l' -> Without (lit "id") (apply_attr (set_id_cmd id i) l) l'.
Proof.
  intros Hid Hl W. apply id_ident in Hid.
  assert (Hv : ValidName (id_str id)) by (rewrite Hid; apply id_valid).
  destruct (set_spec l id (Some (ident_into_value i)) Hl Hv) as (l2 & W2 & E).
  unfold set_id_cmd. rewrite E. rewrite Hid in W2.
  replace l' with (l2 ++ []) by (rewrite app_nil_r; eapply without_functional; eauto).
  apply without_app; [eapply without_idem; eauto|].
  apply W_drop; [|constructor]. unfold NamedAs. simpl. rewrite Hid. apply same_name_refl.
Qed.
Lemma remove_id_has l id j : static_ident (lit "id") = Some id -> ValidAttrs l ->
  ~ HasId (apply_attr (ARemoveAttribute id) l) j /\
  Without (lit "id") l (apply_attr (ARemoveAttribute id) l).
Proof.
  intros Hid Hl. apply id_ident in Hid.
  assert (Hv : ValidName (id_str id)) by (rewrite Hid; apply id_valid).
  pose proof (remove_spec l id Hl Hv) as W. rewrite Hid in W. split; auto.
  eapply without_has_id; eauto.
Qed.

(** ** Operations preserve the validity of names *)
Lemma valid_without n l l' : Without n l l' -> ValidAttrs l -> ValidAttrs l'.
Proof. intros W H a Ha. apply (without_in _ _ _ W) in Ha. now apply H. Qed.
Lemma valid_single n v : ValidName (id_str n) -> ValidAttrs [Attribute n v].
Proof. intros H a [<-|[]]. exact H. Qed.
Lemma remove_loop_valid l c : ValidAttrs l -> ValidAttrs (remove_class_loop l c).
Proof.
  intros Hl. induction l as [|a l IH]; auto. apply valid_attrs_cons in Hl. destruct Hl as [Ha Hl].
  simpl. unfold attribute_remove_class. destruct (make_without a c) as [nv|].
  - destruct (enc_is_empty nv); auto. apply valid_attrs_cons. auto.
  - apply valid_attrs_cons. auto.
Qed.
Lemma except_valid l n : ValidAttrs l -> ValidAttrs (attributes_except l n).
Proof.
  intros Hl. induction l as [|a l IH]; auto. apply valid_attrs_cons in Hl. destruct Hl as [Ha Hl].
  simpl. destruct (negb _); auto. apply valid_attrs_cons. auto.
Qed.
Lemma add_to_valid l n v sep : ValidAttrs l -> ValidName (id_str n) ->
  ValidAttrs (add_to_attribute l n v sep).
Proof.
  intros Hl Hn. induction l as [|a l IH]; simpl; [now apply valid_single|].
  apply valid_attrs_cons in Hl. destruct Hl as [Ha Hl].
  destruct (ident_eqb _ _); apply valid_attrs_cons; auto.
Qed.

Definition cmd_name (c : attr_cmd) : ident :=
  match c with
  | ARemoveClass n | ARemoveAttribute n | AAddAttribute n _ | AReplaceAttribute n _
  | AAddToAttribute n _ _ | ASetAttribute n _ => n
  end.
Lemma apply_attr_valid c l : ValidName (id_str (cmd_name c)) -> ValidAttrs l ->
  ValidAttrs (apply_attr c l).
Proof.
  intros Hn Hl. destruct c; simpl in *.
  - unfold remove_class. destruct (has_class _ _); auto. now apply remove_loop_valid.
  - now apply except_valid.
  - apply valid_attrs_app. split; auto. now apply valid_single.
  - unfold replace_attribute. destruct (negb _); [apply valid_attrs_app; split|];
      try apply valid_single; auto; now apply except_valid.
  - now apply add_to_valid.
  - apply valid_attrs_app. split; [now apply except_valid|now apply valid_single].
Qed.
