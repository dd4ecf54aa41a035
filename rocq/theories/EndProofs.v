(** Proofs for C72: streams that have ended stay ended. *)
From Coq Require Import String ZArith List Bool Lia.
From stdpp Require Import gmap.
From Verif Require Import Text Event Input Parse Selector Machine.
From Verif Require Import SpecEnd StreamBase StreamProofs FuelProofs.
Local Open Scope nat_scope.

(** ** Cells that are borrowed stay borrowed *)

Definition kb {A} (l : loc) (o : out A) : Prop :=
  match o with Done h _ => h !! l = Some Borrowed | _ => True end.
Lemma kb_bind {A B} l (o : out A) (k : heap -> A -> out B) : kb l o ->
  (forall h a, h !! l = Some Borrowed -> kb l (k h a)) -> kb l (obind o k).
Proof. destruct o; simpl; auto. Qed.
Lemma kb_on_ok l o dead k : kb l o -> (forall h s r, h !! l = Some Borrowed -> kb l (k h s r)) -> kb l (on_ok o dead k).
Proof. intros H Hk. apply kb_bind; auto. intros h [s [r|e]] Hl; simpl; auto. Qed.
Lemma kb_fresh (h : heap) l c : h !! l = Some Borrowed -> <[fresh_loc h := c]> h !! l = Some Borrowed.
Proof.
  intros H. rewrite lookup_insert_ne; auto. intros <-. now rewrite fresh_loc_none in H.
Qed.
Lemma kb_attr_new l h s name c : h !! l = Some Borrowed -> kb l (attr_new h s name c).
Proof. intros H. unfold attr_new. destruct name as [n|]; [destruct (c n)|]; simpl; auto. Qed.

Fixpoint kb_op (l : loc) (o : op) {struct o} : forall h s, h !! l = Some Borrowed -> kb l (build_op o h s).
Proof.
  assert (forall p : list op, forall h s, h !! l = Some Borrowed ->
    kb l ((fix build (p : pipeline) (h : heap) (s : strm) {struct p} : out strm :=
      match p with
      | [] => Done h s
      | o :: p => obind (build_op o h s) (fun h s => build p h s)
      end) p h s)) as Hp.
  { fix IH 1. intros [|o' p] h s H; [exact H|]. apply kb_bind; [now apply kb_op|]. intros; now apply IH. }
  intros h s H. destruct o; cbn [build_op]; unfold select_new, select_once_new; cbv zeta;
    repeat match goal with
    | |- kb _ (match (_, _) with _ => _ end) => cbv beta iota
    | |- kb _ (match ?x with _ => _ end) => destruct x
    end; try (now apply Hp); try (now apply kb_attr_new); try exact I; try exact H; try (now apply kb_fresh).
  apply kb_bind; [now apply Hp|now auto].
Qed.
Lemma kb_build l p : forall h s, h !! l = Some Borrowed -> kb l (build p h s).
Proof.
  induction p as [|o p IH]; intros h s H; [exact H|]. cbn [build].
  apply kb_bind; [now apply kb_op|auto].
Qed.
Lemma kb_build_content l b h s : h !! l = Some Borrowed -> kb l (build_content b h s).
Proof. intros H. destruct b; simpl; auto using kb_build, kb_fresh. Qed.

Record kbe (l : loc) (e : engine) : Prop :=
  { kb_ne : forall h s, h !! l = Some Borrowed -> kb l (ne e h s);
    kb_sk : forall h s, h !! l = Some Borrowed -> kb l (sk e h s);
    kb_dr : forall h s, h !! l = Some Borrowed -> kb l (dr e h s);
    kb_co : forall h s acc, h !! l = Some Borrowed -> kb l (co e h s acc) }.

Lemma kb_with_cell l h l' f : h !! l = Some Borrowed ->
  (forall h s, h !! l = Some Borrowed -> kb l (f h s)) -> kb l (with_cell h l' f).
Proof.
  intros H Hf. unfold with_cell. destruct (h !! l') as [[s|]|] eqn:E; try exact I.
  assert (l <> l') as Hn by congruence.
  apply kb_bind.
  - apply Hf. now rewrite lookup_insert_ne by auto.
  - intros h1 [s1 r] H1. simpl. now rewrite lookup_insert_ne by auto.
Qed.
Lemma kb_peek l e h s : kbe l e -> h !! l = Some Borrowed -> kb l (peek e h s).
Proof.
  intros He H. destruct s; try exact I. destruct buffered; [exact H|].
  apply kb_on_ok; [now apply He|auto].
Qed.

Ltac kb_go He := first
  [ assumption | exact I
  | apply kb_fresh; assumption
  | apply (kb_ne _ _ He); kb_go He | apply (kb_sk _ _ He); kb_go He
  | apply (kb_dr _ _ He); kb_go He | apply (kb_co _ _ He); kb_go He
  | apply kb_build; kb_go He | apply kb_build_content; kb_go He
  | apply kb_with_cell; [kb_go He|intros; first [apply (kb_ne _ _ He)|apply (kb_sk _ _ He)|apply kb_peek; [exact He|]]; kb_go He]
  | apply kb_on_ok; [kb_go He|intros ? ? ? ?; kb_go He]
  | apply kb_bind; [kb_go He|intros ? ? ?; kb_go He]
  | match goal with |- kb _ (match ?x with _ => _ end) => destruct x; kb_go He end ].

Lemma kb_ne_body l e h s : kbe l e -> h !! l = Some Borrowed -> kb l (ne_body e h s).
Proof.
  intros He H. destruct s; cbn [ne_body]; unfold passthrough, emit, finish, fail; cbv zeta; try (kb_go He).
Qed.
Lemma kbe_run l n : kbe l (run n).
Proof.
  induction n as [|n IH]; [split; intros; exact I|]. split; intros; cbn [run ne sk dr co].
  - now apply kb_ne_body.
  - unfold sk_body. kb_go IH.
  - unfold dr_body. kb_go IH.
  - unfold co_body. kb_go IH.
Qed.

(** ** Streams that have ended *)

Inductive Ended : heap -> strm -> Prop :=
| En_template h evs i : nth_error evs i = None -> Ended h (STemplate evs i)
| En_user h : Ended h (SUser [] None)
| En_content h : Ended h (SContent None)
| En_shared h l s : h !! l = Some (Cell s) -> Ended (<[l := Borrowed]> h) s -> Ended h (SShared l)
| En_fallible h : Ended h (SFallible None)
| En_expand h : Ended h (SExpand None)
| En_peek h s : Ended h s -> Ended h (SPeek s None)
| En_combine h : Ended h (SCombine None)
| En_remove h s : Ended h s -> Ended h (SRemove s)
| En_single h : Ended h (SSingle None)
| En_select h l m b calls direct : Ended h (SSelect l m b calls direct None)
| En_select_once h l : Ended h (SSelectOnce l None)
| En_select_content h : Ended h (SSelectContent None)
| En_current h : Ended h (SCurrentContent None)
| En_either h first s : Ended h s -> Ended h (SApplyEither first s)
| En_apply h : Ended h (STemplateApply None)
| En_repeat h : Ended h (SRepeat None)
| En_repeat_or h : Ended h (SRepeatOrElse None)
| En_attr h : Ended h (SAttr None).

Lemma ended_stays h s : Ended h s -> Ev (fun n => ne (run n) h s) h (s, inl None).
Proof.
  induction 1 as [h evs i Hi| | |h l s Hl He IH| | |h s He IH| |h s He IH| | | | | |h first s He IH| | | |];
    try (now ne_now).
  - apply ne_intro. exists 0. intros m _. cbn [ne_body]. now rewrite Hi.
  - destruct IH as [n Hn]. apply ne_intro. exists n. intros m Hm. cbn [ne_body]. unfold with_cell.
    rewrite Hl, Hn by auto. cbn [obind]. rewrite insert_insert, insert_id by auto. reflexivity.
  - assert (Ev (fun n => sk (run n) h s) h (s, inl None)) as E by (apply sk_ret; [discriminate|exact IH]).
    ne_by E.
  - destruct IH as [n Hn]. apply ne_intro. exists (S n). intros [|m] Hm; [lia|].
    cbn [ne_body run dr]. unfold dr_body. rewrite Hn by lia. reflexivity.
  - destruct IH as [n Hn]. apply ne_intro. exists n. intros m Hm. cbn [ne_body]. now rewrite Hn by auto.
Qed.

Definition ends (o : step_out) : Prop :=
  match o with Done h (s, inl (Some _)) => True | Done h (s, _) => Ended h s | _ => True end.
Lemma ends_on_ok o dead k : ends o -> (forall h s, Ended h s -> Ended h (dead s)) ->
  (forall h s ev, ends (k h s (Some ev))) -> (forall h s, Ended h s -> ends (k h s None)) ->
  ends (on_ok o dead k).
Proof.
  intros Ho Hd Hk Hk'. destruct o as [| |h [s [[ev|]|err]]]; simpl in *; auto.
Qed.
Lemma ends_bind {A} (o : out A) (k : heap -> A -> step_out) : (forall h a, ends (k h a)) -> ends (obind o k).
Proof. intros H. destruct o; simpl; auto. Qed.

Record eng_ends (e : engine) : Prop :=
  { ends_ne : forall h s, ends (ne e h s);
    ends_sk : forall h s, ends (sk e h s);
    ends_dr : forall h s, ends (dr e h s) }.

Lemma ends_with_cell e h l : eng_ends e -> (forall l, kbe l e) -> ends (with_cell h l (ne e)).
Proof.
  intros He Hk. unfold with_cell. destruct (h !! l) as [[s|]|] eqn:E; try exact I.
  pose proof (ends_ne _ He (<[l := Borrowed]> h) s) as H1.
  pose proof (kb_ne _ _ (Hk l) (<[l := Borrowed]> h) s (lookup_insert _ _ _)) as H2.
  destruct (ne e (<[l := Borrowed]> h) s) as [| |h1 [s1 [[ev|]|err]]]; simpl in *; auto;
    (apply En_shared with s1; [apply lookup_insert|]); rewrite insert_insert, insert_id; auto.
Qed.

Ltac end_go He Hk := first
  [ exact I
  | solve [constructor; auto]
  | apply ends_with_cell; assumption
  | apply (ends_ne _ He) | apply (ends_sk _ He) | apply (ends_dr _ He)
  | apply ends_on_ok; [end_go He Hk|intros ? ? ?; solve [constructor; auto]|intros; end_go He Hk|intros ? ? ?; end_go He Hk]
  | match goal with |- ends (match ?x with _ => _ end) => destruct x eqn:?; end_go He Hk end
  | apply ends_bind; intros; end_go He Hk ].

Lemma ends_ne_body e h s : eng_ends e -> (forall l, kbe l e) -> ends (ne_body e h s).
Proof.
  intros He Hk. destruct s; cbn [ne_body]; unfold passthrough, emit, finish, fail; cbv zeta; try (end_go He Hk).
  pose proof (ends_ne _ He h s) as H.
  destruct (ne e h s) as [| |h1 [s1 [[ev|]|err]]]; simpl in *; auto; now constructor.
Qed.
Lemma ends_run n : eng_ends (run n).
Proof.
  induction n as [|n IH]; [split; intros; exact I|]. split; intros h s; cbn [run ne sk dr].
  - apply ends_ne_body; [exact IH|intros l; apply kbe_run].
  - unfold sk_body. pose proof (ends_ne _ IH h s) as H.
    destruct (ne (run n) h s) as [| |h1 [s1 [[ev|]|err]]]; simpl in *; auto.
    destruct ev; try exact I. apply IH.
  - unfold dr_body. pose proof (ends_ne _ IH h s) as H.
    destruct (ne (run n) h s) as [| |h1 [s1 [[ev|]|err]]]; simpl in *; auto; try apply IH; now constructor.
Qed.

Lemma stops_ends o h s r : ends o -> o = Done h (s, r) -> Stops r -> Ended h s.
Proof. intros H -> [->|[err ->]]; exact H. Qed.

Lemma ne_le n m h s : n <= m -> le_out (ne (run n) h s) (ne (run m) h s).
Proof. induction 1 as [|m _ IH]; [apply le_refl|]. eapply le_trans; [exact IH|]. apply le_run. Qed.
Lemma sk_le n m h s : n <= m -> le_out (sk (run n) h s) (sk (run m) h s).
Proof. induction 1 as [|m _ IH]; [apply le_refl|]. eapply le_trans; [exact IH|]. apply le_run. Qed.

Lemma ended_answers h s : Ended h s ->
  forall h' s' r, Answers h s h' s' r <-> h' = h /\ s' = s /\ r = inl None.
Proof.
  intros H h' s' r. destruct (ended_stays _ _ H) as [j Hj]. split.
  - intros [k Hk]. specialize (Hj (max j k) ltac:(lia)).
    destruct (ne_le k (max j k) h s ltac:(lia)) as [E|E]; [congruence|]. rewrite Hk, Hj in E.
    injection E as -> -> ->. auto.
  - intros (-> & -> & ->). exists j. now apply Hj.
Qed.
Lemma ended_answers_skip h s : Ended h s ->
  forall h' s' r, AnswersSkip h s h' s' r <-> h' = h /\ s' = s /\ r = inl None.
Proof.
  intros H h' s' r.
  assert (Ev (fun n => sk (run n) h s) h (s, inl None)) as [j Hj].
  { apply sk_ret; [discriminate|]. now apply ended_stays. }
  split.
  - intros [k Hk]. specialize (Hj (max j k) ltac:(lia)).
    destruct (sk_le k (max j k) h s ltac:(lia)) as [E|E]; [congruence|]. rewrite Hk, Hj in E.
    injection E as -> -> ->. auto.
  - intros (-> & -> & ->). exists j. now apply Hj.
Qed.

Lemma answers_ended h s h' s' r : Answers h s h' s' r \/ AnswersSkip h s h' s' r -> Stops r -> Ended h' s'.
Proof.
  intros [[n Hn]|[n Hn]] Hr.
  - exact (stops_ends _ _ _ _ (ends_ne _ (ends_run n) h s) Hn Hr).
  - exact (stops_ends _ _ _ _ (ends_sk _ (ends_run n) h s) Hn Hr).
Qed.
Lemma stays h s h' s' r : Answers h s h' s' r -> Stops r ->
  forall h2 s2 r2, Answers h' s' h2 s2 r2 <-> h2 = h' /\ s2 = s' /\ r2 = inl None.
Proof. intros H Hr. apply ended_answers. eapply answers_ended; eauto. Qed.
Lemma stays_skip h s h' s' r : AnswersSkip h s h' s' r -> Stops r ->
  forall h2 s2 r2, AnswersSkip h' s' h2 s2 r2 <-> h2 = h' /\ s2 = s' /\ r2 = inl None.
Proof. intros H Hr. apply ended_answers_skip. eapply answers_ended; eauto. Qed.

Lemma asked_ended h s rs : Asked h s rs -> Ended h s -> forall r, In r rs -> r = inl None.
Proof.
  induction 1 as [|h s h' s' r rs H Ha IH|h s h' s' r rs H Ha IH]; intros He x; [intros []| |].
  - apply (ended_answers _ _ He) in H as (-> & -> & ->). intros [<-|Hx]; auto.
  - apply (ended_answers_skip _ _ He) in H as (-> & -> & ->). intros [<-|Hx]; auto.
Qed.
Lemma asked_stays h s rs r rs' : Asked h s (rs ++ r :: rs') -> Stops r -> forall x, In x rs' -> x = inl None.
Proof.
  intros H Hr. revert h s H. induction rs as [|r0 rs IH]; intros h s H.
  - inversion H as [|? ? h' s' ? ? Hx Ha|? ? h' s' ? ? Hx Ha]; subst;
      (eapply asked_ended; [exact Ha|]); eapply answers_ended; eauto.
  - inversion H; subst; eauto.
Qed.
Lemma asked_more h s rs r : Asked h s (rs ++ [r]) -> Stops r ->
  forall n, Asked h s (rs ++ r :: repeat (inl None) n).
Proof.
  intros H Hr n. revert h s H. induction rs as [|r0 rs IH]; intros h s H.
  - assert (forall h' s', Ended h' s' -> Asked h' s' (repeat (inl None) n)) as Hn.
    { intros h' s' He. induction n as [|n IHn]; [constructor|]. eapply Asked_next; [|exact IHn].
      apply ended_answers; auto. }
    inversion H as [|? ? h' s' ? ? Hx Ha|? ? h' s' ? ? Hx Ha]; subst.
    + eapply Asked_next; [exact Hx|]. apply Hn. eapply answers_ended; eauto.
    + eapply Asked_skip; [exact Hx|]. apply Hn. eapply answers_ended; eauto.
  - inversion H as [|? ? h' s' ? ? Hx Ha|? ? h' s' ? ? Hx Ha]; subst.
    + eapply Asked_next; eauto.
    + eapply Asked_skip; eauto.
Qed.
