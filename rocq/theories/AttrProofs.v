(** Proofs about attributes, classes and ids. *)
From Coq Require Import String List NArith Bool Lia.
Import ListNotations.
From Verif Require Import Text Event Machine SpecText SpecAttr TextProofs.
Open Scope N_scope.

(** ** Names *)

Lemma named_eqb n a : ValidName (id_str n) -> ValidName (id_str (a_name a)) ->
  (ident_eqb (a_name a) n = true <-> NamedAs (id_str n) a).
Proof.
  intros Hn Ha. rewrite ident_eqb_spec by auto. unfold NamedAs.
  split; apply same_name_sym.
Qed.
Lemma named_eqb_false n a : ValidName (id_str n) -> ValidName (id_str (a_name a)) ->
  (ident_eqb (a_name a) n = false <-> ~ NamedAs (id_str n) a).
Proof. intros Hn Ha. rewrite <- named_eqb by auto. now rewrite not_true_iff_false. Qed.

Lemma valid_attrs_cons a l : ValidAttrs (a :: l) <-> ValidName (id_str (a_name a)) /\ ValidAttrs l.
Proof.
  unfold ValidAttrs. split.
  - intros H. split; intros; apply H; simpl; auto.
  - intros [H1 H2] b [<-|Hb]; auto.
Qed.
Lemma valid_attrs_app l l' : ValidAttrs (l ++ l') <-> ValidAttrs l /\ ValidAttrs l'.
Proof.
  unfold ValidAttrs. split.
  - intros H. split; intros; apply H, in_or_app; auto.
  - intros [H1 H2] b Hb. apply in_app_or in Hb. destruct Hb; auto.
Qed.

(** ** The list operations *)

Lemma except_without l n : ValidAttrs l -> ValidName (id_str n) ->
  Without (id_str n) l (attributes_except l n).
Proof.
  intros Hl Hn. induction l as [|a l IH]; simpl; [constructor|].
  apply valid_attrs_cons in Hl. destruct Hl as [Ha Hl].
  destruct (ident_eqb (a_name a) n) eqn:E; simpl.
  - apply W_drop; auto. now apply named_eqb.
  - apply W_keep; auto. now apply named_eqb_false.
Qed.

Lemma without_functional n l l1 l2 : Without n l l1 -> Without n l l2 -> l1 = l2.
Proof.
  intros H. revert l2. induction H; intros l2 H'; inversion H'; subst; auto; try tauto.
  f_equal; auto.
Qed.
Lemma without_in n l l' : Without n l l' -> forall a, In a l' <-> In a l /\ ~ NamedAs n a.
Proof.
  induction 1 as [|a l l' Ha H IH|a l l' Ha H IH]; intros b; simpl.
  - tauto.
  - rewrite IH. split; [tauto|]. intros [[->|H1] H2]; tauto.
  - rewrite IH. split; [|tauto]. intros [->|H1]; tauto.
Qed.
Lemma without_none n l : (forall a, In a l -> ~ NamedAs n a) -> Without n l l.
Proof.
  induction l as [|a l IH]; intros H; [constructor|apply W_keep].
  - apply H. now left.
  - apply IH. intros b Hb. apply H. now right.
Qed.
Lemma without_length n l l' : Without n l l' ->
  (length l' <= length l)%nat /\ (length l' = length l -> forall a, In a l -> ~ NamedAs n a).
Proof.
  induction 1 as [|a l l' Ha H IH|a l l' Ha H IH]; simpl.
  - split; [lia|]. intros _ a [].
  - destruct IH as [IH1 IH2]. split; lia.
  - destruct IH as [IH1 IH2]. split; [lia|]. intros E b [<-|Hb]; auto.
Qed.

Lemma set_spec l n v : ValidAttrs l -> ValidName (id_str n) ->
  exists l', Without (id_str n) l l' /\
             apply_attr (ASetAttribute n v) l = l' ++ [Attribute n v].
Proof. intros Hl Hn. exists (attributes_except l n). split; auto. now apply except_without. Qed.

Lemma remove_spec l n : ValidAttrs l -> ValidName (id_str n) ->
  Without (id_str n) l (apply_attr (ARemoveAttribute n) l).
Proof. apply except_without. Qed.

Lemma replace_spec l n v : ValidAttrs l -> ValidName (id_str n) ->
  ((exists a, In a l /\ NamedAs (id_str n) a) ->
   apply_attr (AReplaceAttribute n v) l = apply_attr (ASetAttribute n v) l) /\
  ((forall a, In a l -> ~ NamedAs (id_str n) a) -> apply_attr (AReplaceAttribute n v) l = l).
Proof.
  intros Hl Hn. pose proof (except_without l n Hl Hn) as W.
  pose proof (without_length _ _ _ W) as [L1 L2].
  simpl. unfold replace_attribute, set_attribute. split.
  - intros (a & Ha & Hna). destruct (PeanoNat.Nat.eqb_spec (length l) (length (attributes_except l n))).
    + exfalso. apply (L2 (eq_sym e) a); auto.
    + reflexivity.
  - intros H. rewrite (without_functional _ _ _ _ W (without_none _ _ H)).
    rewrite PeanoNat.Nat.eqb_refl. reflexivity.
Qed.

Lemma enc_join_str a b : enc_str (enc_join a b) = enc_str a ++ enc_str b.
Proof.
  unfold enc_join. destruct (PeanoNat.Nat.eqb_spec (str_len (enc_str b)) 0) as [E|E]; [|reflexivity].
  destruct (enc_str b) as [|c s]; [now rewrite app_nil_r|].
  exfalso. simpl in E. unfold len_utf8 in E.
  destruct (c <? 128), (c <? 2048), (c <? 65536); simpl in E; discriminate.
Qed.

Lemma add_to_absent l n v sep : ValidAttrs l -> ValidName (id_str n) ->
  (forall a, In a l -> ~ NamedAs (id_str n) a) ->
  apply_attr (AAddToAttribute n v sep) l = l ++ [Attribute n (Some v)].
Proof.
  intros Hl Hn. simpl. induction l as [|a l IH]; intros H; simpl; auto.
  apply valid_attrs_cons in Hl. destruct Hl as [Ha Hl].
  replace (ident_eqb (a_name a) n) with false.
  - f_equal. apply IH; auto. intros b Hb. apply H. now right.
  - symmetry. apply named_eqb_false; auto. apply H. now left.
Qed.
Lemma add_to_present pre a post n v sep : ValidAttrs (pre ++ a :: post) -> ValidName (id_str n) ->
  (forall b, In b pre -> ~ NamedAs (id_str n) b) -> NamedAs (id_str n) a ->
  exists a' v', apply_attr (AAddToAttribute n v sep) (pre ++ a :: post) = pre ++ a' :: post /\
    a_name a' = a_name a /\ a_value a' = Some v' /\
    enc_str v' = match a_value a with
                 | Some old => enc_str old ++ enc_str sep ++ enc_str v
                 | None => enc_str v
                 end.
Proof.
  intros Hl Hn Hpre Ha. simpl. induction pre as [|b pre IH]; simpl in *.
  - apply valid_attrs_cons in Hl. destruct Hl as [Hva _].
    apply (named_eqb n a Hn Hva) in Ha. rewrite Ha. eexists _, _. repeat split.
    destruct (a_value a); auto. now rewrite !enc_join_str, app_assoc.
  - apply valid_attrs_cons in Hl. destruct Hl as [Hvb Hl].
    replace (ident_eqb (a_name b) n) with false.
    2:{ symmetry. apply named_eqb_false; auto. }
    destruct IH as (a' & v' & -> & H); auto. exists a', v'. auto.
Qed.

(** ** Words *)

Lemma space_spec c : is_whitespace c = true <-> Space c.
Proof.
  unfold is_whitespace, Space. simpl In.
  rewrite !orb_true_iff, !andb_true_iff, !N.leb_le, !N.eqb_eq. intuition lia.
Qed.
Lemma space_spec_false c : is_whitespace c = false <-> ~ Space c.
Proof. rewrite <- space_spec. destruct (is_whitespace c); intuition congruence. Qed.

Lemma word_app_ws w a c b : Space c -> (IsWord w (a ++ c :: b) <-> IsWord w a \/ IsWord w b).
Proof.
  intros Hc. split.
  - intros (pre & post & E & Hne & Hw & Hpre & Hpost).
    destruct (PeanoNat.Nat.le_gt_cases (length pre) (length a)) as [L|L].
    + (* the word starts in [a] *)
      left. assert (exists a', a = pre ++ a') as [a' Ea].
      { exists (skipn (length pre) a).
        rewrite <- (firstn_skipn (length pre) a) at 1. f_equal.
        apply (f_equal (firstn (length pre))) in E.
        rewrite firstn_app_exact, firstn_app in E.
        replace (length pre - length a)%nat with 0%nat in E by lia.
        simpl in E. now rewrite app_nil_r in E. }
      subst a. rewrite <- app_assoc in E. apply app_inv_head in E.
      assert (exists a'', a' = w ++ a'' /\ post = a'' ++ c :: b) as (a'' & -> & ->).
      { clear Hne Hpre Hpost L. revert a' E. induction w as [|x w IH]; intros a' E; simpl in *; eauto.
        destruct a' as [|y a']; simpl in E; injection E as <- E.
        - exfalso. apply (Hw c); auto.
        - destruct (IH (fun z Hz => Hw z (or_intror Hz)) a' E) as (a'' & -> & ->). eauto. }
      exists pre, a''. repeat split; auto.
      destruct a'' as [|y a'']; [now left|]. right.
      destruct Hpost as [Hp|(d & q & Hp & Hd)]; [discriminate|]. injection Hp as <- _. eauto.
    + (* it starts in [b] *)
      right. assert (exists pre', pre = a ++ c :: pre') as [pre' ->].
      { clear Hpre. revert pre E L. induction a as [|x a IH]; intros pre E L; destruct pre as [|y pre];
          simpl in *; try lia; injection E as <- E; eauto.
        destruct (IH pre E ltac:(lia)) as [pre' ->]. eauto. }
      rewrite <- app_assoc in E. apply app_inv_head in E. simpl in E. injection E as ->.
      exists pre', post. repeat split; auto.
      destruct pre' as [|y pre'] using rev_ind; [now left|]. right.
      destruct Hpre as [Hp|(p & d & Hp & Hd)]; [destruct a; discriminate|].
      exists pre', y. split; auto.
      rewrite app_comm_cons, app_assoc in Hp. apply app_inj_tail in Hp. now destruct Hp as [_ <-].
  - intros [(pre & post & -> & Hne & Hw & Hpre & Hpost)|(pre & post & -> & Hne & Hw & Hpre & Hpost)].
    + exists pre, (post ++ c :: b). rewrite <- !app_assoc. repeat split; auto.
      right. destruct Hpost as [->|(d & q & -> & Hd)]; simpl; eauto.
    + exists (a ++ c :: pre), post. rewrite <- app_assoc. repeat split; auto.
      right. destruct Hpre as [->|(p & d & -> & Hd)].
      * exists a, c. auto.
      * exists (a ++ c :: p), d. split; auto. now rewrite <- app_assoc.
Qed.

Lemma word_nil w : ~ IsWord w [].
Proof.
  intros (pre & post & E & Hne & _). symmetry in E. apply app_eq_nil in E.
  destruct E as [_ E]. apply app_eq_nil in E. tauto.
Qed.

Lemma word_single w t : (forall c, In c t -> ~ Space c) -> t <> [] -> (IsWord w t <-> w = t).
Proof.
  intros Ht Hne. split.
  - intros (pre & post & -> & _ & _ & Hpre & Hpost).
    destruct Hpre as [->|(p & c & -> & Hc)].
    2:{ exfalso. apply (Ht c); auto. rewrite <- !app_assoc. apply in_or_app. right. now left. }
    destruct Hpost as [->|(c & q & -> & Hc)]; [simpl; now rewrite app_nil_r|].
    exfalso. apply (Ht c); auto. simpl. apply in_or_app. right. now left.
  - intros ->. exists [], []. rewrite app_nil_r. repeat split; auto.
Qed.

Lemma split_whitespace_aux_words s acc : (forall c, In c acc -> ~ Space c) ->
  forall w, In w (split_whitespace_aux acc s) <-> IsWord w (rev acc ++ s).
Proof.
  revert acc; induction s as [|c s IH]; intros acc Hacc w; simpl.
  - rewrite app_nil_r. destruct acc as [|x acc].
    + simpl. split; [tauto|apply word_nil].
    + rewrite word_single.
      * simpl. intuition.
      * intros d Hd. apply Hacc. now apply in_rev.
      * simpl. destruct (rev acc); discriminate.
  - destruct (is_whitespace c) eqn:Ec.
    + rewrite word_app_ws by now apply space_spec. destruct acc as [|x acc].
      * rewrite IH by (intros ? []). simpl. split; auto. intros [H|H]; auto. now apply word_nil in H.
      * change (In w (rev (x :: acc) :: split_whitespace_aux [] s)
                <-> IsWord w (rev (x :: acc)) \/ IsWord w s).
        rewrite word_single.
        -- simpl In at 1. rewrite IH by (intros ? []). simpl. intuition.
        -- intros d Hd. apply Hacc. now apply in_rev.
        -- simpl. destruct (rev acc); discriminate.
    + rewrite IH.
      * simpl. now rewrite <- app_assoc.
      * intros d [<-|Hd]; auto. now apply space_spec_false.
Qed.
Lemma split_whitespace_words s w : In w (split_whitespace s) <-> IsWord w s.
Proof. unfold split_whitespace. rewrite split_whitespace_aux_words; [reflexivity|intros ? []]. Qed.

Lemma word_nonempty w s : IsWord w s -> w <> [].
Proof. intros (_ & _ & _ & H & _). auto. Qed.

(** ** Classes *)

Lemma class_valid : ValidName (lit "class").
Proof. apply validate_iff. vm_compute. eauto. Qed.
Lemma id_valid : ValidName (lit "id").
Proof. apply validate_iff. vm_compute. eauto. Qed.

Lemma ident_is_eq_named n a : ValidName n -> ValidName (id_str (a_name a)) ->
  (ident_is_eq (a_name a) n = true <-> NamedAs n a).
Proof.
  intros Hn Ha. unfold ident_is_eq. rewrite identifier_eq_spec.
  rewrite (valid_ascii _ Hn), (valid_ascii _ Ha). unfold NamedAs.
  split; [intros (_ & _ & H)|intros H; repeat split; auto]; now apply same_name_sym.
Qed.

Lemma attribute_classes_some a ws : ValidName (id_str (a_name a)) ->
  (attribute_classes a = Some ws ->
   NamedAs (lit "class") a /\ exists v, a_value a = Some v /\
     forall w, In w ws <-> IsWord w (enc_str v)).
Proof.
  intros Ha. unfold attribute_classes.
  destruct (ident_is_eq (a_name a) (lit "class")) eqn:E; [|discriminate].
  apply (ident_is_eq_named _ _ class_valid Ha) in E.
  destruct (a_value a) as [v|]; [|discriminate]. intros [= <-]. split; auto.
  exists v. split; auto. intros w. rewrite filter_In, split_whitespace_words.
  split; [tauto|]. intros H. split; auto. apply word_nonempty in H. destruct w; congruence.
Qed.
Lemma attribute_classes_none a : ValidName (id_str (a_name a)) ->
  attribute_classes a = None -> ~ NamedAs (lit "class") a \/ a_value a = None.
Proof.
  intros Ha. unfold attribute_classes.
  destruct (ident_is_eq (a_name a) (lit "class")) eqn:E.
  - destruct (a_value a); [discriminate|auto].
  - intros _. left. rewrite <- (ident_is_eq_named _ _ class_valid Ha). congruence.
Qed.

(** [a] alone gives class [c] *)
Definition GivesClass (a : attribute) (c : str) : Prop :=
  exists v w, NamedAs (lit "class") a /\ a_value a = Some v /\ IsWord w (enc_str v) /\
              SameName c w.
Lemma has_class_gives l c : HasClass l c <-> exists a, In a l /\ GivesClass a c.
Proof.
  unfold HasClass, GivesClass. split.
  - intros (a & v & w & H). exists a. split; [tauto|]. exists v, w. tauto.
  - intros (a & Ha & v & w & H). exists a, v, w. tauto.
Qed.

Lemma attribute_has_class_spec a c : ValidName (id_str (a_name a)) -> is_ascii c = true ->
  (attribute_has_class a c = true <-> GivesClass a c).
Proof.
  intros Ha Hc. unfold attribute_has_class, GivesClass.
  destruct (attribute_classes a) as [ws|] eqn:E.
  - apply attribute_classes_some in E; auto. destruct E as (Hn & v & Hv & Hws).
    rewrite existsb_exists. split.
    + intros (w & Hw & Heq). apply identifier_eq_spec in Heq. exists v, w.
      rewrite <- Hws. tauto.
    + intros (v' & w & _ & Hv' & Hw & Heq). assert (v' = v) as -> by congruence.
      exists w. rewrite Hws. split; auto. apply identifier_eq_spec.
      rewrite <- (same_name_ascii _ _ Heq). auto.
  - apply attribute_classes_none in E; auto. split; [discriminate|].
    intros (v & w & Hn & Hv & _). destruct E; congruence.
Qed.

Lemma has_class_spec l c : ValidAttrs l -> is_ascii c = true ->
  (has_class l c = true <-> HasClass l c).
Proof.
  intros Hl Hc. rewrite has_class_gives. unfold has_class. rewrite existsb_exists.
  split; intros (a & Ha & H); exists a; split; auto;
    apply (attribute_has_class_spec a c (Hl a Ha) Hc); auto.
Qed.

Lemma has_id_spec l i : ValidAttrs l -> is_ascii i = true ->
  (has_id l i = true <-> HasId l i).
Proof.
  intros Hl Hi. unfold HasId. induction l as [|a l IH]; simpl.
  - split; [discriminate|]. intros (a & v & [] & _).
  - apply valid_attrs_cons in Hl. destruct Hl as [Ha Hl]. specialize (IH Hl).
    destruct (ident_is_eq (a_name a) (lit "id")) eqn:E.
    + apply (ident_is_eq_named _ _ id_valid Ha) in E. destruct (a_value a) as [v|] eqn:Ev.
      * destruct (identifier_eq (enc_str v) i) eqn:Ei.
        -- apply identifier_eq_spec in Ei. split; auto. intros _. exists a, v.
           repeat split; auto. apply same_name_sym. tauto.
        -- rewrite IH. split.
           ++ intros (b & u & Hb & H). exists b, u. auto.
           ++ intros (b & u & [<-|Hb] & Hn & Hu & Hs); [|exists b, u; auto].
              exfalso. assert (u = v) as -> by congruence.
              apply not_true_iff_false in Ei. apply Ei. apply identifier_eq_spec.
              rewrite <- (same_name_ascii _ _ Hs). repeat split; auto. now apply same_name_sym.
      * rewrite IH. split.
        -- intros (b & u & Hb & H). exists b, u. auto.
        -- intros (b & u & [<-|Hb] & Hn & Hu & Hs); [congruence|exists b, u; auto].
    + rewrite IH. split.
      * intros (b & u & Hb & H). exists b, u. auto.
      * intros (b & u & [<-|Hb] & Hn & Hu & Hs); [|exists b, u; auto].
        exfalso. apply (ident_is_eq_named _ _ id_valid Ha) in Hn. congruence.
Qed.
