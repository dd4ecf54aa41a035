(** Proofs about selectors. *)
From Coq Require Import String List NArith Bool Lia.
Import ListNotations.
From Verif Require Import Text Event Selector SpecText SpecAttr SpecSelect TextProofs AttrProofs AttrProofs2.
Open Scope N_scope.

(** ** Splitting *)

Lemma split_char_cons sep s : exists w ws, split_char sep s = w :: ws.
Proof.
  induction s as [|c s (w & ws & E)]; simpl; eauto.
  destruct (c =? sep); eauto. rewrite E. eauto.
Qed.
Lemma split_char_no sep w : ~ In sep w -> split_char sep w = [w].
Proof.
  induction w as [|c w IH]; intros H; simpl; auto.
  destruct (N.eqb_spec c sep) as [->|]; [exfalso; apply H; now left|].
  rewrite IH by (intros ?; apply H; now right). reflexivity.
Qed.
Lemma split_char_app sep w s : ~ In sep w -> split_char sep (w ++ sep :: s) = w :: split_char sep s.
Proof.
  induction w as [|c w IH]; intros H; simpl.
  - now rewrite N.eqb_refl.
  - destruct (N.eqb_spec c sep) as [->|]; [exfalso; apply H; now left|].
    rewrite IH by (intros ?; apply H; now right). reflexivity.
Qed.
Lemma split_separated sep w ws : (forall d, In d (w :: ws) -> ~ In sep d) ->
  split_char sep (separated sep w ws) = w :: ws.
Proof.
  revert w; induction ws as [|w' ws IH]; intros w H; simpl.
  - apply split_char_no. apply H. now left.
  - rewrite split_char_app by (apply H; now left). rewrite IH; auto.
    intros d Hd. apply H. now right.
Qed.
Lemma split_char_spec sep s : exists w ws, split_char sep s = w :: ws /\
  s = separated sep w ws /\ forall d, In d (w :: ws) -> ~ In sep d.
Proof.
  induction s as [|c s (w & ws & E & -> & H)]; simpl.
  - exists [], []. repeat split; auto. intros d [<-|[]] [].
  - destruct (N.eqb_spec c sep) as [->|Hc].
    + exists [], (w :: ws). rewrite E. repeat split; auto.
      intros d [<-|Hd]; [intros []|now apply H].
    + rewrite E. exists (c :: w), ws. repeat split; auto.
      * destruct ws; reflexivity.
      * intros d [<-|Hd]; [|apply H; now right].
        intros [?|Hi]; [congruence|]. apply (H w); auto. now left.
Qed.

(** ** Shapes exist and are unique *)

Lemma shape_classes_det r c1 c2 : ShapeClasses r c1 -> ShapeClasses r c2 -> c1 = c2.
Proof.
  intros H1 H2. destruct H1 as [|c cs H]; inversion H2 as [|c' cs' H' E]; subst; auto.
  pose proof (split_separated 46 c cs H) as X. pose proof (split_separated 46 c' cs' H') as Y.
  congruence.
Qed.
Lemma shape_classes_start r c : ShapeClasses r c -> r = [] \/ exists r', r = 46 :: r'.
Proof. destruct 1; eauto. Qed.

(** split at the first character of a set *)
Lemma app_split_unique (P : char -> Prop) a b a' b' :
  (forall x, In x a -> ~ P x) -> (forall x, In x a' -> ~ P x) ->
  (b = [] \/ exists x y, b = x :: y /\ P x) -> (b' = [] \/ exists x y, b' = x :: y /\ P x) ->
  a ++ b = a' ++ b' -> a = a' /\ b = b'.
Proof.
  revert a'; induction a as [|x a IH]; intros a' Ha Ha' Hb Hb' E; destruct a' as [|y a']; simpl in *.
  - auto.
  - subst b. destruct Hb as [?|(z & t & Hb & Hp)]; [discriminate|].
    injection Hb as -> _. exfalso. apply (Ha' z); auto.
  - subst b'. destruct Hb' as [?|(z & t & Hz & Hp)]; [discriminate|].
    injection Hz as -> _. exfalso. apply (Ha z); auto.
  - injection E as <- E. destruct (IH a') as [-> ->]; auto.
Qed.

Lemma shape_rest_start r i c : ShapeRest r i c ->
  r = [] \/ exists x y, r = x :: y /\ (x = 35 \/ x = 46).
Proof.
  destruct 1 as [i r c H1 H2|r c H]; [right; eauto|].
  apply shape_classes_start in H. destruct H as [->|[r' ->]]; [auto|right; eauto].
Qed.
Lemma shape_rest_det r i1 c1 i2 c2 : ShapeRest r i1 c1 -> ShapeRest r i2 c2 -> i1 = i2 /\ c1 = c2.
Proof.
  intros H1 H2. destruct H1 as [i r c Hi Hr|r c Hr]; inversion H2 as [i' r' c' Hi' Hr' E|r' c' Hr']; subst.
  - apply (app_split_unique (fun x => x = 46)) in E.
    + destruct E as [-> ->]. split; auto. eapply shape_classes_det; eauto.
    + intros x Hx ->. auto.
    + intros x Hx ->. auto.
    + apply shape_classes_start in Hr'. destruct Hr' as [->|[z ->]]; [auto|right; eauto].
    + apply shape_classes_start in Hr. destruct Hr as [->|[z ->]]; [auto|right; eauto].
  - apply shape_classes_start in Hr'. destruct Hr' as [|[z ?]]; discriminate.
  - apply shape_classes_start in Hr. destruct Hr as [|[z ?]]; discriminate.
  - split; auto. eapply shape_classes_det; eauto.
Qed.
Lemma shape_det s t1 i1 c1 t2 i2 c2 :
  Shape s t1 i1 c1 -> Shape s t2 i2 c2 -> t1 = t2 /\ i1 = i2 /\ c1 = c2.
Proof.
  intros [t r tag id cl Es H1 H2 H3 Hr] [t' r' tag' id' cl' Es' H1' H2' H3' Hr'].
  rewrite Es in Es'. apply (app_split_unique (fun x => x = 35 \/ x = 46)) in Es'.
  - destruct Es' as [<- <-]. destruct (shape_rest_det _ _ _ _ _ Hr Hr') as [<- <-].
    repeat split; auto. destruct H3 as [[]|[]], H3' as [[]|[]]; congruence.
  - intros x Hx [->| ->]; auto.
  - intros x Hx [->| ->]; auto.
  - eapply shape_rest_start; eauto.
  - eapply shape_rest_start; eauto.
Qed.

Lemma shape_classes_any s : ShapeClasses (46 :: s) (split_char 46 s).
Proof.
  destruct (split_char_spec 46 s) as (w & ws & -> & -> & H). constructor. auto.
Qed.

(** ** Parsing *)

(** [check_classes] *)
Lemma check_classes_none cs k : check_classes k cs = None <-> forall c, In c cs -> ValidName c.
Proof.
  revert k; induction cs as [|c cs IH]; intros k; simpl.
  - split; auto. intros _ c [].
  - destruct (validate c) as [t|e] eqn:E.
    + rewrite IH. assert (ValidName c) by (apply validate_iff; eauto).
      split; [intros H1 d [<-|Hd]; auto|intros H1 d Hd; apply H1; auto].
    + split; [discriminate|]. intros H. specialize (H c (or_introl eq_refl)).
      apply validate_ok in H. congruence.
Qed.
Lemma validate_err s e : validate s = inr e <-> NameError s e.
Proof.
  rewrite <- ident_from_str_err. unfold ident_from_str.
  destruct (validate s); split; congruence.
Qed.
Lemma check_classes_some cs k e : check_classes k cs = Some e <->
  exists pre c post ie, cs = pre ++ c :: post /\ (forall d, In d pre -> ValidName d) /\
    NameError c ie /\ e = StaticClass (k + length pre) ie.
Proof.
  revert k; induction cs as [|c cs IH]; intros k; simpl.
  - split; [discriminate|]. intros (pre & c & post & _ & E & _). destruct pre; discriminate.
  - destruct (validate c) as [t|ie] eqn:E.
    + rewrite IH. split.
      * intros (pre & d & post & ie & -> & Hp & He & ->).
        exists (c :: pre), d, post, ie. split; [auto|split; [|split; [auto|]]].
        -- intros x [<-|Hx]; auto. apply validate_iff. eauto.
        -- simpl. f_equal. lia.
      * intros (pre & d & post & ie & Ec & Hp & He & ->).
        destruct pre as [|x pre]; simpl in Ec; injection Ec as <- ->.
        -- apply validate_err in He. congruence.
        -- exists pre, d, post, ie. split; [auto|split; [|split; [auto|]]].
           ++ intros y Hy. apply Hp. now right.
           ++ simpl. f_equal. lia.
    + apply validate_err in E. split.
      * intros [= <-]. exists [], c, cs, ie. split; [auto|split; [intros _ []|split; [auto|]]].
        simpl. f_equal. lia.
      * intros (pre & d & post & ie' & Ec & Hp & He & ->).
        destruct pre as [|x pre]; simpl in Ec; injection Ec as <- ->.
        -- rewrite (name_error_functional _ _ _ He E). simpl. do 2 f_equal. lia.
        -- exfalso. eapply name_error_invalid; [exact E|]. apply Hp. now left.
Qed.

Definition tag_opt (t : str) : option str := match t with [] => None | _ => Some t end.

Lemma tag_part_spec s : exists t rest, s = t ++ rest /\ ~ In 35 t /\ ~ In 46 t /\
  (rest = [] \/ exists x y, rest = x :: y /\ (x = 35 \/ x = 46)) /\
  static_tag_part s = match t with
                      | [] => inl (None, s)
                      | _ => match validate t with
                             | inl t => inl (Some t, rest)
                             | inr e => inr (StaticTag e)
                             end
                      end.
Proof.
  unfold static_tag_part. destruct (find_char (in_chars [c_hash; c_dot]) s) as [n|] eqn:E.
  - apply find_char_some in E. destruct E as (pre & c & post & -> & Hn & Hc & Hpre). subst n.
    apply in_chars_spec in Hc. exists pre, (c :: post). split; [reflexivity|].
    assert (Hin : forall x, In x pre -> ~ In x [c_hash; c_dot]).
    { intros x Hx Hi. apply in_chars_spec in Hi. specialize (Hpre x Hx). congruence. }
    split; [intros Hx; apply (Hin _ Hx); simpl; auto|].
    split; [intros Hx; apply (Hin _ Hx); simpl; auto|].
    split.
    + right. exists c, post. split; auto. destruct Hc as [<-|[<-|[]]]; auto.
    + destruct pre as [|x pre]; [reflexivity|]. cbn [length].
      change (S (length pre)) with (length (x :: pre)).
      rewrite firstn_app_exact, skipn_app_exact. reflexivity.
  - rewrite find_char_none in E. exists s, []. rewrite app_nil_r. split; auto.
    assert (Hin : forall x, In x s -> ~ In x [c_hash; c_dot]).
    { intros x Hx Hi. apply in_chars_spec in Hi. specialize (E x Hx). congruence. }
    split; [intros Hx; apply (Hin _ Hx); simpl; auto|].
    split; [intros Hx; apply (Hin _ Hx); simpl; auto|].
    split; auto. destruct s as [|x s]; [reflexivity|].
    rewrite firstn_all, skipn_all. cbn [length]. reflexivity.
Qed.

Lemma id_part_spec rest :
  (rest = [] \/ exists x y, rest = x :: y /\ (x = 35 \/ x = 46)) ->
  exists id r, match id with Some i => rest = 35 :: i ++ r /\ ~ In 46 i | None => rest = r end /\
    (r = [] \/ exists y, r = 46 :: y) /\
    let res := match r with [] => ([], false) | _ :: y => (y, true) end in
    static_id_part rest =
    match id with
    | Some i => match validate i with
                | inl i => inl (Some i, fst res, snd res)
                | inr e => inr (StaticId e)
                end
    | None => inl (None, fst res, snd res)
    end.
Proof.
  intros [->|(x & y & -> & [->| ->])].
  - exists None, []. repeat split; auto.
  - unfold static_id_part. change (35 =? c_hash) with true. cbv iota.
    destruct (find_char (N.eqb c_dot) y) as [n|] eqn:E.
    + apply find_char_some in E. destruct E as (pre & c & post & -> & Hn & Hc & Hpre). subst n.
      apply N.eqb_eq in Hc. subst c. exists (Some pre), (46 :: post). split; [split; auto|].
      * intros Hi. apply Hpre in Hi. discriminate.
      * split; [eauto|]. cbn zeta. rewrite firstn_app_exact.
        replace (skipn (1 + length pre) (pre ++ c_dot :: post)) with post.
        2:{ clear. induction pre; simpl; auto. }
        reflexivity.
    + rewrite find_char_none in E. exists (Some y), []. rewrite app_nil_r.
      split; [split; auto|].
      * intros Hi. apply E in Hi. discriminate.
      * split; auto.
  - exists None, (46 :: y). repeat split; eauto.
Qed.

Lemma static_spec s : exists tag id classes, Shape s tag id classes /\
  static_into_selector s =
  match tag, id, classes with
  | None, None, [] => inr StaticUnrestricted
  | _, _, _ =>
    match match tag with Some t => validate t | None => inl [] end with
    | inr e => inr (StaticTag e)
    | inl _ =>
      match match id with Some t => validate t | None => inl [] end with
      | inr e => inr (StaticId e)
      | inl _ =>
        match check_classes 0 classes with
        | Some e => inr e
        | None => inl (Static tag id (match classes with
                                      | [] => None
                                      | c :: cs => Some (separated 46 c cs)
                                      end))
        end
      end
    end
  end.
Proof.
  destruct (tag_part_spec s) as (t & rest & -> & H1 & H2 & H3 & E).
  destruct (id_part_spec rest H3) as (id & r & Hid & Hr & E2). cbv zeta in E2.
  assert (exists classes, ShapeClasses r classes /\
            match r with [] => classes = [] | _ :: y => classes = split_char 46 y end)
    as (classes & Hc & Hcl).
  { destruct Hr as [->|[y ->]].
    - exists []. split; [constructor|auto].
    - exists (split_char 46 y). split; [apply shape_classes_any|auto]. }
  exists (tag_opt t), id, classes. split.
  { apply shape with t rest; auto.
    - destruct t; [left; auto|right]. split; [discriminate|auto].
    - destruct id as [i|].
      + destruct Hid as [-> Hi]. constructor; auto.
      + subst r. constructor. auto. }
  unfold static_into_selector. rewrite E.
  assert (Hre : match t with [] => t ++ rest = rest | _ => True end) by (destruct t; auto).
  assert (Hval : forall x y, validate x = inl y -> y = x).
  { intros x y Hv. assert (Hvx : ValidName x) by (apply validate_iff; eauto).
    apply validate_ok in Hvx. congruence. }
  assert (Hfin : forall tag : option str, (tag = None -> tag_opt t = None) ->
    tag_opt t = tag ->
    match static_id_part rest with
    | inl (id0, rest0, expect_class) =>
        match (if expect_class then check_classes 0 (split_char c_dot rest0) else None) with
        | Some e => inr e
        | None =>
            match tag, id0, (if expect_class then Some rest0 else None) with
            | None, None, None => inr StaticUnrestricted
            | _, _, _ => inl (Static tag id0 (if expect_class then Some rest0 else None))
            end
        end
    | inr e => inr e
    end =
    match tag, id, classes with
    | None, None, [] => inr StaticUnrestricted
    | _, _, _ =>
      match match id with Some t => validate t | None => inl [] end with
      | inr e => inr (StaticId e)
      | inl _ =>
        match check_classes 0 classes with
        | Some e => inr e
        | None => inl (Static tag id (match classes with
                                      | [] => None
                                      | c :: cs => Some (separated 46 c cs)
                                      end))
        end
      end
    end).
  { intros tag _ _. rewrite E2. destruct Hr as [->|[y ->]].
    - subst classes. destruct id as [i|].
      + destruct (validate i) as [i'|e] eqn:Ei.
        * apply Hval in Ei. subst i'. destruct tag; reflexivity.
        * destruct tag; reflexivity.
      + destruct tag; reflexivity.
    - subst classes. destruct (split_char_spec 46 y) as (w & ws & Hw & Hy & _).
      change c_dot with 46. cbn [fst snd].
      destruct id as [i|].
      + destruct (validate i) as [i'|e] eqn:Ei.
        * apply Hval in Ei. subst i'. rewrite Hw, <- Hy. destruct tag;
            destruct (check_classes 0 (w :: ws)); reflexivity.
        * destruct tag; reflexivity.
      + rewrite Hw, <- Hy. destruct tag; destruct (check_classes 0 (w :: ws)); reflexivity. }
  destruct t as [|x t].
  - rewrite Hre. rewrite (Hfin None) by auto. reflexivity.
  - cbn [tag_opt]. destruct (validate (x :: t)) as [t'|e] eqn:Et; [|reflexivity].
    apply Hval in Et. subst t'. etransitivity; [apply (Hfin (Some (x :: t)))|reflexivity].
    + discriminate.
    + reflexivity.
Qed.

Lemma shape_total s : exists tag id classes, Shape s tag id classes.
Proof. destruct (static_spec s) as (tag & id & classes & H & _). eauto. Qed.

Lemma opt_valid_validate o :
  (exists t, match o with Some t => validate t | None => inl [] end = inl t) <-> OptValid o.
Proof.
  unfold OptValid. destruct o as [t|].
  - rewrite validate_iff. split; [intros H s [= <-]; auto|auto].
  - split; [discriminate|eauto].
Qed.

Lemma static_ok_iff s tag id classes : Shape s tag id classes ->
  ((exists st, static_into_selector s = inl st) <->
   (tag <> None \/ id <> None \/ classes <> []) /\
   OptValid tag /\ OptValid id /\ forall c, In c classes -> ValidName c).
Proof.
  intros HS. destruct (static_spec s) as (tag' & id' & classes' & HS' & E).
  destruct (shape_det _ _ _ _ _ _ _ HS HS') as (<- & <- & <-). rewrite E. clear E.
  rewrite <- (opt_valid_validate tag), <- (opt_valid_validate id), <- (check_classes_none classes 0).
  assert (Hnz : (tag <> None \/ id <> None \/ classes <> []) \/
                (tag = None /\ id = None /\ classes = [])).
  { destruct tag; [left; left; discriminate|].
    destruct id; [left; right; left; discriminate|].
    destruct classes; [right; auto|left; right; right; discriminate]. }
  destruct Hnz as [Hnz|(-> & -> & ->)].
  2:{ split; [intros (st & X); discriminate|]. intros ([|[|]] & _); congruence. }
  set (st := Static tag id (match classes with
                            | [] => None
                            | c :: cs => Some (separated 46 c cs)
                            end)).
  transitivity (exists st0, match match tag with Some t => validate t | None => inl [] end with
              | inr e => inr (StaticTag e)
              | inl _ =>
                match match id with Some t => validate t | None => inl [] end with
                | inr e => inr (StaticId e)
                | inl _ =>
                  match check_classes 0 classes with
                  | Some e => inr e
                  | None => inl st
                  end
                end
              end = inl st0).
  { unfold st. destruct tag as [t|]; [|destruct id as [i|]; [|destruct classes as [|c cs]]];
      try reflexivity. destruct Hnz as [|[|]]; congruence. }
  destruct (match tag with Some t => validate t | None => inl [] end) as [vt|et].
  2:{ split; [intros (x & X); discriminate|]. intros (_ & (x & X) & _). discriminate. }
  destruct (match id with Some t => validate t | None => inl [] end) as [vi|ei].
  2:{ split; [intros (x & X); discriminate|]. intros (_ & _ & (x & X) & _). discriminate. }
  destruct (check_classes 0 classes) as [ce|].
  { split; [intros (x & X); discriminate|]. intros (_ & _ & _ & X). discriminate. }
  split; [intros _|intros _; eauto]. repeat split; eauto.
Qed.

Lemma static_err_iff s tag id classes e : Shape s tag id classes ->
  (static_into_selector s = inr e <-> ShapeError tag id classes e).
Proof.
  intros HS. destruct (static_spec s) as (tag' & id' & classes' & HS' & E).
  destruct (shape_det _ _ _ _ _ _ _ HS HS') as (<- & <- & <-). rewrite E. clear E HS HS'.
  assert (G : match match tag with Some t => validate t | None => inl [] end with
              | inr e => inr (StaticTag e)
              | inl _ =>
                match match id with Some t => validate t | None => inl [] end with
                | inr e => inr (StaticId e)
                | inl _ =>
                  match check_classes 0 classes with
                  | Some e => inr e
                  | None => inl (Static tag id (match classes with
                                                | [] => None
                                                | c :: cs => Some (separated 46 c cs)
                                                end))
                  end
                end
              end = inr e <-> ShapeError tag id classes e /\ e <> StaticUnrestricted).
  { pose proof (opt_valid_validate tag) as Ht. pose proof (opt_valid_validate id) as Hi.
    assert (Htag : forall t e', tag = Some t -> NameError t e' -> ~ OptValid tag).
    { intros t e' -> Hn Hv. eapply name_error_invalid; [exact Hn|]. now apply Hv. }
    assert (Hidv : forall t e', id = Some t -> NameError t e' -> ~ OptValid id).
    { intros t e' -> Hn Hv. eapply name_error_invalid; [exact Hn|]. now apply Hv. }
    destruct (match tag with Some t => validate t | None => inl [] end) as [vt|et] eqn:Et.
    - assert (Hvt : OptValid tag) by (apply Ht; eauto).
      destruct (match id with Some t => validate t | None => inl [] end) as [vi|ei] eqn:Ei.
      + assert (Hvi : OptValid id) by (apply Hi; eauto).
        destruct (check_classes 0 classes) as [ce|] eqn:Ec.
        * apply check_classes_some in Ec. destruct Ec as (pre & c & post & ie & -> & Hp & Hn & ->).
          simpl plus. split.
          -- intros [= <-]. split; [|discriminate]. eapply SE_class; eauto.
          -- intros [H Hne]. inversion H as [|t e' H1 H2|t e' H1 H2 H3|pre' c' post' e' H1 H2 H3 H4 H5];
               subst; try congruence.
             ++ exfalso. eapply Htag; eauto.
             ++ exfalso. eapply Hidv; eauto.
             ++ assert (X : check_classes 0 (pre ++ c :: post) = Some (StaticClass (length pre) ie)).
                { apply check_classes_some. exists pre, c, post, ie. auto. }
                assert (Y : check_classes 0 (pre ++ c :: post) = Some (StaticClass (length pre') e')).
                { apply check_classes_some. exists pre', c', post', e'. auto. }
                congruence.
        * rewrite check_classes_none in Ec. split; [discriminate|]. intros [H Hne]. exfalso.
          inversion H as [|t e' H1 H2|t e' H1 H2 H3|pre' c' post' e' H1 H2 H3 H4 H5];
            subst; try congruence.
          -- eapply Htag; eauto.
          -- eapply Hidv; eauto.
          -- eapply name_error_invalid; [exact H5|]. apply Ec. apply in_or_app. right. now left.
      + destruct id as [i|]; [|discriminate]. apply validate_err in Ei. split.
        * intros [= <-]. split; [|discriminate]. eapply SE_id; eauto.
        * intros [H Hne]. inversion H as [|t e' H1 H2|t e' H1 H2 H3|pre' c' post' e' H1 H2 H3 H4 H5];
            subst; try congruence.
          -- exfalso. eapply Htag; eauto.
          -- injection H2 as <-. rewrite (name_error_functional _ _ _ H3 Ei). reflexivity.
          -- exfalso. eapply (Hidv i); eauto.
    - destruct tag as [t|]; [|discriminate]. apply validate_err in Et. split.
      + intros [= <-]. split; [|discriminate]. eapply SE_tag; eauto.
      + intros [H Hne]. inversion H as [|t' e' H1 H2|t' e' H1 H2 H3|pre' c' post' e' H1 H2 H3 H4 H5];
          subst; try congruence.
        * injection H1 as <-. rewrite (name_error_functional _ _ _ H2 Et). reflexivity.
        * exfalso. eapply (Htag t); eauto.
        * exfalso. eapply (Htag t); eauto. }
  assert (Hne : (tag <> None \/ id <> None \/ classes <> []) ->
                (ShapeError tag id classes e /\ e <> StaticUnrestricted <-> ShapeError tag id classes e)).
  { intros H. split; [tauto|]. intros H'. split; auto. intros ->. inversion H'. subst.
    destruct H as [|[|]]; congruence. }
  destruct tag as [t|]; [|destruct id as [i|]; [|destruct classes as [|c cs]]];
    try (rewrite G; apply Hne; (left; discriminate) || (right; left; discriminate)
                               || (right; right; discriminate)).
  split.
  - intros [= <-]. constructor; auto.
  - intros H. inversion H; subst; try congruence. destruct pre; discriminate.
Qed.

(** ** Matching *)

Lemma static_result s st tag id classes : Shape s tag id classes ->
  static_into_selector s = inl st ->
  st = Static tag id (match classes with [] => None | c :: cs => Some (separated 46 c cs) end) /\
  (forall c, In c classes -> ~ In 46 c).
Proof.
  intros HS H. destruct (static_spec s) as (tag' & id' & classes' & HS' & E).
  destruct (shape_det _ _ _ _ _ _ _ HS HS') as (<- & <- & <-). split.
  - rewrite E in H. clear E.
    destruct tag as [t|], id as [i|], classes as [|c cs]; try discriminate;
    repeat match type of H with
           | match ?x with _ => _ end = _ => destruct x; try discriminate
           end; congruence.
  - destruct HS as [t r tag id cl _ _ _ _ Hr].
    assert (exists x, ShapeClasses x cl) as [x Hx] by (destruct Hr; eauto).
    destruct Hx; [intros ? []|auto].
Qed.

Lemma static_matches_described s st tag id classes ev : Shape s tag id classes ->
  static_into_selector s = inl st -> ValidEvent ev ->
  (matches (SelStatic st) ev = true <-> Described tag id classes ev).
Proof.
  intros HS Hst Hev.
  destruct (proj1 (static_ok_iff _ _ _ _ HS) (ex_intro _ _ Hst)) as (_ & Hvt & Hvi & Hvc).
  destruct (static_result _ _ _ _ _ HS Hst) as [-> Hdots]. clear HS Hst. simpl matches.
  unfold static_matches, Described. simpl.
  assert (Hmain : forall t a, ValidName (id_str t) -> ValidAttrs a ->
    ((if match tag with Some match_tag => negb (ident_is_eq t match_tag) | None => false end
      then false
      else if match id with Some match_id => negb (has_id a match_id) | None => false end
           then false
           else match match classes with [] => None | c :: cs => Some (separated 46 c cs) end with
                | Some cl => forallb (has_class a) (split_char c_dot cl)
                | None => true
                end) = true <->
     (forall x, tag = Some x -> SameName x (id_str t)) /\
     (forall x, id = Some x -> HasId a x) /\
     (forall x, In x classes -> HasClass a x))).
  { intros t a Ht Ha.
    assert (X1 : match tag with Some m => negb (ident_is_eq t m) | None => false end = false <->
                 forall x, tag = Some x -> SameName x (id_str t)).
    { destruct tag as [x|]; [|split; [discriminate|auto]].
      rewrite negb_false_iff. unfold ident_is_eq. rewrite identifier_eq_spec.
      rewrite (valid_ascii _ Ht), (valid_ascii _ (Hvt x eq_refl)). split.
      - intros (_ & _ & H) y [= <-]. now apply same_name_sym.
      - intros H. repeat split; auto. apply same_name_sym. auto. }
    assert (X2 : match id with Some m => negb (has_id a m) | None => false end = false <->
                 forall x, id = Some x -> HasId a x).
    { destruct id as [x|]; [|split; [discriminate|auto]].
      rewrite negb_false_iff, has_id_spec by (auto; apply valid_ascii; auto). split.
      - intros H y [= <-]. auto.
      - auto. }
    assert (X3 : match match classes with [] => None | c :: cs => Some (separated 46 c cs) end with
                 | Some cl => forallb (has_class a) (split_char c_dot cl)
                 | None => true
                 end = true <-> forall x, In x classes -> HasClass a x).
    { destruct classes as [|c cs]; [split; [intros _ x []|auto]|].
      change c_dot with 46. rewrite split_separated by auto. rewrite forallb_forall.
      split; intros H x Hx; apply has_class_spec; auto; apply valid_ascii; auto. }
    rewrite <- X1, <- X2, <- X3.
    destruct (match tag with Some m => negb (ident_is_eq t m) | None => false end);
      [intuition discriminate|].
    destruct (match id with Some m => negb (has_id a m) | None => false end);
      [intuition discriminate|]. tauto. }
  destruct ev as [| | | | |t a|t|t a|t a]; simpl in *;
    try (split; [discriminate|intros (x & y & H & _); inversion H]);
    destruct Hev as [Ht Ha]; rewrite (Hmain t a Ht Ha);
    (split; [intros H; exists (id_str t), a; split; [constructor|exact H]
            |intros (x & y & H & H'); inversion H; subst; exact H']).
Qed.

(** typed selectors *)
Definition selector_parts (s : selector) : option (option str * option str * list str) :=
  match s with
  | SelId i => Some (None, Some (id_str i), [])
  | SelTag i => Some (Some (id_str i), None, [])
  | SelClass i => Some (None, None, [id_str i])
  | SelClasses is => Some (None, None, map id_str is)
  | _ => None
  end.

Lemma typed_matches ev : ValidEvent ev ->
  (forall i, ValidName (id_str i) -> (matches (SelTag i) ev = true <-> Described (Some (id_str i)) None [] ev)) /\
  (forall i, ValidName (id_str i) -> (matches (SelId i) ev = true <-> Described None (Some (id_str i)) [] ev)) /\
  (forall i, ValidName (id_str i) -> (matches (SelClass i) ev = true <-> Described None None [id_str i] ev)) /\
  (forall is, (forall i, In i is -> ValidName (id_str i)) ->
     (matches (SelClasses is) ev = true <-> Described None None (map id_str is) ev)).
Proof.
  intros Hev. unfold Described.
  assert (Hd : forall (X : ident -> attributes -> bool) (P : str -> attributes -> Prop),
    (forall t a, ValidName (id_str t) -> ValidAttrs a -> (X t a = true <-> P (id_str t) a)) ->
    (match element_tag_start ev, event_attributes ev with
     | Some t, Some a => X t a | _, _ => false end = true <-> exists t a, Starts ev t a /\ P t a)).
  { intros X P H.
    destruct ev as [| | | | |t a|t|t a|t a]; simpl in *;
      try (split; [discriminate|intros (x & y & H' & _); inversion H']);
      destruct Hev as [Ht Ha]; rewrite (H t a Ht Ha);
      (split; [intros H'; exists (id_str t), a; split; [constructor|exact H']
              |intros (x & y & H' & H''); inversion H'; subst; exact H'']). }
  split; [|split; [|split]].
  - intros i Hi. simpl.
    rewrite <- (Hd (fun t a => ident_eqb t i)
                 (fun t a => (forall x, Some (id_str i) = Some x -> SameName x t) /\
                             (forall x, None = Some x -> HasId a x) /\
                             (forall x, In x [] -> HasClass a x))).
    + destruct ev; simpl; reflexivity.
    + intros t a Ht Ha. rewrite ident_eqb_spec by auto. split.
      * intros H. split; [|split; [discriminate|intros x []]].
        intros x [= <-]. now apply same_name_sym.
      * intros (H & _). apply same_name_sym. auto.
  - intros i Hi. simpl.
    rewrite <- (Hd (fun t a => has_id a (id_str i))
                 (fun t a => (forall x, None = Some x -> SameName x t) /\
                             (forall x, Some (id_str i) = Some x -> HasId a x) /\
                             (forall x, In x [] -> HasClass a x))).
    + destruct ev; simpl; reflexivity.
    + intros t a Ht Ha. rewrite has_id_spec by (auto; now apply valid_ascii). split.
      * intros H. split; [discriminate|split; [intros x [= <-]; auto|intros x []]].
      * intros (_ & H & _). auto.
  - intros i Hi. simpl.
    rewrite <- (Hd (fun t a => has_class a (id_str i))
                 (fun t a => (forall x, None = Some x -> SameName x t) /\
                             (forall x, None = Some x -> HasId a x) /\
                             (forall x, In x [id_str i] -> HasClass a x))).
    + destruct ev; simpl; reflexivity.
    + intros t a Ht Ha. rewrite has_class_spec by (auto; now apply valid_ascii). split.
      * intros H. split; [discriminate|split; [discriminate|intros x [<-|[]]; auto]].
      * intros (_ & _ & H). apply H. now left.
  - intros is Hi. simpl.
    rewrite <- (Hd (fun t a => forallb (fun i => has_class a (id_str i)) is)
                 (fun t a => (forall x, None = Some x -> SameName x t) /\
                             (forall x, None = Some x -> HasId a x) /\
                             (forall x, In x (map id_str is) -> HasClass a x))).
    + destruct ev; simpl; reflexivity.
    + intros t a Ht Ha. rewrite forallb_forall. split.
      * intros H. split; [discriminate|split; [discriminate|]].
        intros x Hx. apply in_map_iff in Hx. destruct Hx as (i & <- & Hx).
        apply has_class_spec; auto. apply valid_ascii; auto.
      * intros (_ & _ & H) i Hx. apply has_class_spec; auto; [apply valid_ascii; auto|].
        apply H. now apply in_map.
Qed.

(** construction of the typed selectors *)
Lemma classes_loop_spec vs k acc :
  match classes_loop k vs acc with
  | inl ids => (forall v, In v vs -> ValidName v) /\
               map id_str ids = map id_str acc ++ vs
  | inr e => exists pre v post ie, vs = pre ++ v :: post /\ (forall d, In d pre -> ValidName d) /\
               NameError v ie /\ e = ClassesIdentifier (k + length pre) ie
  end.
Proof.
  revert k acc; induction vs as [|v vs IH]; intros k acc; simpl.
  - split; [intros _ []|now rewrite app_nil_r].
  - destruct (ident_from_str v) as [i|e] eqn:E.
    + apply ident_from_str_iff in E. destruct E as [Hv Hi].
      specialize (IH (S k) (acc ++ [i])). destruct (classes_loop (S k) vs (acc ++ [i])) as [ids|e].
      * destruct IH as [IH1 IH2]. split.
        -- intros x [<-|Hx]; auto.
        -- rewrite IH2, map_app, <- app_assoc. simpl. now rewrite Hi.
      * destruct IH as (pre & w & post & ie & -> & Hp & Hn & ->).
        exists (v :: pre), w, post, ie. split; [auto|split; [|split; [auto|]]].
        -- intros d [<-|Hd]; auto.
        -- simpl. f_equal. lia.
    + apply ident_from_str_err in E. exists [], v, vs, e. split; [auto|split; [intros _ []|split; [auto|]]].
      simpl. f_equal. lia.
Qed.

Lemma classes_ok vs sel : classes_from_str_iterator vs = inl sel <->
  vs <> [] /\ (forall v, In v vs -> ValidName v) /\
  exists ids, sel = SelClasses ids /\ map id_str ids = vs /\
              ids = map (fun v => Ident (Actual v)) vs.
Proof.
  unfold classes_from_str_iterator. pose proof (classes_loop_spec vs 0 []) as H.
  assert (Hids : forall vs k acc ids, classes_loop k vs acc = inl ids ->
                   ids = acc ++ map (fun v => Ident (Actual v)) vs).
  { clear. induction vs as [|v vs IH]; intros k acc ids; simpl.
    - intros [= <-]. now rewrite app_nil_r.
    - destruct (ident_from_str v) as [i|] eqn:E; [|discriminate].
      apply ident_from_str_iff in E. destruct E as [_ ->]. intros E. apply IH in E.
      now rewrite <- app_assoc in E. }
  destruct (classes_loop 0 vs []) as [ids|e] eqn:E.
  - destruct H as [Hv Hm]. simpl in Hm. apply Hids in E. simpl in E. split.
    + intros X. destruct ids as [|i ids]; [discriminate|]. injection X as <-.
      split; [intros ->; discriminate|]. split; auto. exists (i :: ids). auto.
    + intros (Hne & _ & ids' & -> & _ & E'). rewrite <- E in E'. subst ids'.
      destruct ids; auto. simpl in Hm. congruence.
  - destruct H as (pre & v & post & ie & -> & _ & Hn & _). split; [discriminate|].
    intros (_ & Hv & _). exfalso. eapply name_error_invalid; [exact Hn|].
    apply Hv. apply in_or_app. right. now left.
Qed.
Lemma classes_err vs e : classes_from_str_iterator vs = inr e <->
  (vs = [] /\ e = SESelector (SelErrClasses ClassesEmpty)) \/
  exists pre v post ie, vs = pre ++ v :: post /\ (forall d, In d pre -> ValidName d) /\
    NameError v ie /\ e = SESelector (SelErrClasses (ClassesIdentifier (length pre) ie)).
Proof.
  unfold classes_from_str_iterator. pose proof (classes_loop_spec vs 0 []) as H.
  destruct (classes_loop 0 vs []) as [ids|e'].
  - destruct H as [Hv Hm]. simpl in Hm. destruct ids as [|i ids].
    + simpl in Hm. subst vs. split; [intros [= <-]; auto|].
      intros [[_ ->]|(pre & v & post & ie & E & _)]; auto. destruct pre; discriminate.
    + split; [discriminate|]. intros [[-> _]|(pre & v & post & ie & -> & _ & Hn & _)].
      * discriminate.
      * exfalso. eapply name_error_invalid; [exact Hn|]. apply Hv, in_or_app. right. now left.
  - destruct H as (pre & v & post & ie & -> & Hp & Hn & ->). simpl. split.
    + intros [= <-]. right. exists pre, v, post, ie. auto.
    + intros [[E _]|(pre' & v' & post' & ie' & E & Hp' & Hn' & ->)]; [destruct pre; discriminate|].
      assert (X : check_classes 0 (pre ++ v :: post) = Some (StaticClass (length pre) ie)).
      { apply check_classes_some. exists pre, v, post, ie. auto. }
      assert (Y : check_classes 0 (pre ++ v :: post) = Some (StaticClass (length pre') ie')).
      { apply check_classes_some. exists pre', v', post', ie'. auto. }
      congruence.
Qed.

Lemma typed_construction v :
  (ValidName v -> id_from_str v = inl (SelId (Ident (Actual v))) /\
                  tag_from_str v = inl (SelTag (Ident (Actual v))) /\
                  class_from_str v = inl (SelClass (Ident (Actual v)))) /\
  (forall e, NameError v e -> id_from_str v = inr (SESelector (SelErrId e)) /\
                  tag_from_str v = inr (SESelector (SelErrTag e)) /\
                  class_from_str v = inr (SESelector (SelErrClass e))).
Proof.
  unfold id_from_str, tag_from_str, class_from_str. split.
  - intros H. assert (E : ident_from_str v = inl (Ident (Actual v))) by now apply ident_from_str_iff.
    rewrite E. auto.
  - intros e H. apply ident_from_str_err in H. rewrite H. auto.
Qed.

Lemma static_unrestricted s : static_into_selector s = inr StaticUnrestricted <-> s = [].
Proof.
  destruct (shape_total s) as (tag & id & classes & HS). rewrite (static_err_iff _ _ _ _ _ HS). split.
  - intros H. inversion H; subst. inversion HS as [t r tag id cl Es H1 H2 Ht Hr]; subst.
    destruct Ht as [[-> _]|[_ H3]]; [|discriminate].
    simpl. inversion Hr as [|r' c' Hc]; subst. now inversion Hc.
  - intros ->. assert (HS' : Shape [] None None []).
    { apply shape with [] []; auto. repeat constructor. }
    destruct (shape_det _ _ _ _ _ _ _ HS HS') as (-> & -> & ->). constructor; auto.
Qed.
