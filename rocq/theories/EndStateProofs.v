(** Proofs for C79: streams that have ended stay ended, when closures have state. *)
From Coq Require Import String ZArith List Bool Lia.
From stdpp Require Import gmap.
From Verif Require Import Text Event Input Parse Selector Machine MachineState.
From Verif Require Import SpecEnd SpecEndState StopProofs StateProofs4.
Local Open Scope nat_scope.

Section World.
Context {W : Type}.
Notation heap := (wheap W).

(** ** Cells that are borrowed stay borrowed *)

Notation Bor l h := (fst h !! l = Some WBorrowed).
Definition kb {A} (l : loc) (o : wout W A) : Prop :=
  match o with WDone h _ => Bor l h | _ => True end.
Lemma kb_bind {A B} l (o : wout W A) (k : heap -> A -> wout W B) : kb l o ->
  (forall h a, Bor l h -> kb l (k h a)) -> kb l (wbind o k).
Proof. destruct o; simpl; auto. Qed.
Lemma kb_on_ok l (o : wstep_out W) dead k : kb l o -> (forall h s r, Bor l h -> kb l (k h s r)) -> kb l (won_ok o dead k).
Proof. intros H Hk. apply kb_bind; auto. intros h [s [r|e]] Hl; simpl; auto. Qed.
Lemma kb_fresh (h : gmap loc (wcell W)) l c : h !! l = Some WBorrowed -> <[wfresh_loc h := c]> h !! l = Some WBorrowed.
Proof.
  intros H. rewrite lookup_insert_ne; auto. intros <-. now rewrite StopProofs.fresh_loc_none in H.
Qed.
Lemma kb_attr_new l (h : heap) s name c : Bor l h -> kb l (wattr_new h s name c).
Proof. intros H. unfold wattr_new. destruct name as [n|]; [destruct (c n)|]; simpl; auto. Qed.

Fixpoint kb_op (l : loc) (o : wop W) {struct o} : forall h s, Bor l h -> kb l (wbuild_op o h s).
Proof.
  assert (forall p : list (wop W), forall h s, Bor l h ->
    kb l ((fix wbuild (p : list (wop W)) (h : heap) (s : wstrm W) {struct p} : wout W (wstrm W) :=
      match p with
      | [] => WDone h s
      | o :: p => wbind (wbuild_op o h s) (fun h s => wbuild p h s)
      end) p h s)) as Hp.
  { fix IH 1. intros [|o' p] h s H; [exact H|]. apply kb_bind; [now apply kb_op|]. intros; now apply IH. }
  intros h s H. destruct o; cbn [wbuild_op]; unfold wselect_new, wselect_once_new; cbv zeta;
    repeat match goal with
    | |- kb _ (match (_, _) with _ => _ end) => cbv beta iota
    | |- kb _ (match ?x with _ => _ end) => destruct x
    end; try (now apply Hp); try (now apply kb_attr_new); try exact I; try exact H; try (now apply kb_fresh).
  apply kb_bind; [now apply Hp|now auto].
Qed.
Lemma kb_build l p : forall h s, Bor l h -> kb l (wbuild p h s).
Proof.
  induction p as [|o p IH]; intros h s H; [exact H|]. cbn [wbuild].
  apply kb_bind; [now apply kb_op|auto].
Qed.
Lemma kb_run l (b : once W) h s : Bor l h -> kb l (run_builder b h s).
Proof. intros H. unfold run_builder. destruct (b (snd h)) as [w p]. now apply kb_build. Qed.
Lemma kb_build_content l b h s : Bor l h -> kb l (wbuild_content b h s).
Proof. intros H. destruct b; simpl; auto using kb_build, kb_fresh, kb_run. Qed.

Record kbe (l : loc) (e : wengine W) : Prop :=
  { kb_ne : forall h s, Bor l h -> kb l (wne e h s);
    kb_sk : forall h s, Bor l h -> kb l (wsk e h s);
    kb_dr : forall h s, Bor l h -> kb l (wdr e h s);
    kb_co : forall h s acc, Bor l h -> kb l (wco e h s acc) }.

Lemma kb_with_cell l (h : heap) l' f : Bor l h ->
  (forall h s, Bor l h -> kb l (f h s)) -> kb l (wwith_cell h l' f).
Proof.
  intros H Hf. unfold wwith_cell. destruct (fst h !! l') as [[s|]|] eqn:E; try exact I.
  assert (l <> l') as Hn by congruence.
  apply kb_bind.
  - apply Hf. cbn [fst]. now rewrite lookup_insert_ne by auto.
  - intros h1 [s1 r] H1. simpl. now rewrite lookup_insert_ne by auto.
Qed.
Lemma kb_peek l e h s : kbe l e -> Bor l h -> kb l (wpeek e h s).
Proof.
  intros He H. destruct s; try exact I. destruct buffered; [exact H|].
  apply kb_on_ok; [now apply He|auto].
Qed.

Ltac kb_go He := first
  [ assumption | exact I
  | apply kb_fresh; assumption
  | apply (kb_ne _ _ He); kb_go He | apply (kb_sk _ _ He); kb_go He
  | apply (kb_dr _ _ He); kb_go He | apply (kb_co _ _ He); kb_go He
  | apply kb_run; kb_go He | apply kb_build; kb_go He | apply kb_build_content; kb_go He
  | apply kb_with_cell; [kb_go He|intros; first [apply (kb_ne _ _ He)|apply (kb_sk _ _ He)|apply kb_peek; [exact He|]]; kb_go He]
  | apply kb_on_ok; [kb_go He|intros ? ? ? ?; kb_go He]
  | apply kb_bind; [kb_go He|intros ? ? ?; kb_go He]
  | match goal with |- kb _ (match ?x with _ => _ end) => destruct x; kb_go He end ].

Lemma kb_ne_body l e h s : kbe l e -> Bor l h -> kb l (wne_body e h s).
Proof.
  intros He H. destruct s; cbn [wne_body]; unfold wpassthrough, wemit, wfinish, wfail; cbv zeta; try (kb_go He).
Qed.
Lemma kbe_run l n : kbe l (wrun n).
Proof.
  induction n as [|n IH]; [split; intros; exact I|]. split; intros; cbn [wrun wne wsk wdr wco].
  - now apply kb_ne_body.
  - unfold wsk_body. kb_go IH.
  - unfold wdr_body. kb_go IH.
  - unfold wco_body. kb_go IH.
Qed.

(** ** Streams that have ended *)

Inductive Ended : gmap loc (wcell W) -> wstrm W -> Prop :=
| En_template h evs i : nth_error evs i = None -> Ended h (WSTemplate evs i)
| En_user h : Ended h (WSUser [] None)
| En_live h : Ended h (WSLive None)
| En_content h : Ended h (WSContent None)
| En_shared h l s : h !! l = Some (WCell s) -> Ended (<[l := WBorrowed]> h) s -> Ended h (WSShared l)
| En_fallible h : Ended h (WSFallible None)
| En_expand h : Ended h (WSExpand None)
| En_peek h s : Ended h s -> Ended h (WSPeek s None)
| En_combine h : Ended h (WSCombine None)
| En_remove h s : Ended h s -> Ended h (WSRemove s)
| En_single h : Ended h (WSSingle None)
| En_select h l m b calls direct : Ended h (WSSelect l m b calls direct None)
| En_select_once h l : Ended h (WSSelectOnce l None)
| En_select_content h : Ended h (WSSelectContent None)
| En_current h : Ended h (WSCurrentContent None)
| En_either h first s : Ended h s -> Ended h (WSApplyEither first s)
| En_apply h : Ended h (WSTemplateApply None)
| En_repeat h : Ended h (WSRepeat None)
| En_repeat_or h : Ended h (WSRepeatOrElse None)
| En_attr h : Ended h (WSAttr None).

Definition Ev {A} (f : nat -> wout W A) (h : heap) (a : A) : Prop :=
  exists n, forall m, n <= m -> f m = WDone h a.
Lemma ne_intro h s r : Ev (fun m => wne_body (wrun m) h s) h r -> Ev (fun m => wne (wrun m) h s) h r.
Proof. intros [n Hn]. exists (S n). intros [|m] Hm; [lia|]. apply Hn. lia. Qed.
Lemma sk_intro h s : Ev (fun m => wne (wrun m) h s) h (s, inl None) ->
  Ev (fun m => wsk (wrun m) h s) h (s, inl None).
Proof.
  intros [n Hn]. exists (S n). intros [|m] Hm; [lia|]. cbn [wrun wsk]. unfold wsk_body.
  now rewrite Hn by lia.
Qed.

Lemma ended_stays h0 s : Ended h0 s -> forall w, Ev (fun n => wne (wrun n) (h0, w) s) (h0, w) (s, inl None).
Proof.
  induction 1 as [h evs i Hi| | | |h l s Hl He IH| | |h s He IH| |h s He IH| | | | | |h first s He IH| | | |];
    intros w; try (now apply ne_intro; exists 0).
  - apply ne_intro. exists 0. intros m _. cbn [wne_body]. now rewrite Hi.
  - destruct (IH w) as [n Hn]. apply ne_intro. exists n. intros m Hm. cbn [wne_body]. unfold wwith_cell.
    cbn [fst snd]. rewrite Hl, Hn by auto. cbn [wbind fst snd]. rewrite insert_insert, insert_id by auto. reflexivity.
  - destruct (sk_intro _ _ (IH w)) as [n Hn].
    apply ne_intro. exists n. intros m Hm. cbn [wne_body]. now rewrite Hn by auto.
  - destruct (IH w) as [n Hn]. apply ne_intro. exists (S n). intros [|m] Hm; [lia|].
    cbn [wne_body wrun wdr]. unfold wdr_body. rewrite Hn by lia. reflexivity.
  - destruct (IH w) as [n Hn]. apply ne_intro. exists n. intros m Hm. cbn [wne_body]. now rewrite Hn by auto.
Qed.

Definition ends (o : wstep_out W) : Prop :=
  match o with WDone h (s, inl (Some _)) => True | WDone h (s, _) => Ended (fst h) s | _ => True end.
Lemma ends_on_ok o dead k : ends o -> (forall h s, Ended h s -> Ended h (dead s)) ->
  (forall h s ev, ends (k h s (Some ev))) -> (forall h s, Ended (fst h) s -> ends (k h s None)) ->
  ends (won_ok o dead k).
Proof.
  intros Ho Hd Hk Hk'. destruct o as [| |h [s [[ev|]|err]]]; simpl in *; auto.
Qed.
Lemma ends_bind {A} (o : wout W A) (k : heap -> A -> wstep_out W) : (forall h a, ends (k h a)) -> ends (wbind o k).
Proof. intros H. destruct o; simpl; auto. Qed.

Record eng_ends (e : wengine W) : Prop :=
  { ends_ne : forall h s, ends (wne e h s);
    ends_sk : forall h s, ends (wsk e h s);
    ends_dr : forall h s, ends (wdr e h s) }.

Lemma ends_with_cell e h l : eng_ends e -> (forall l, kbe l e) -> ends (wwith_cell h l (wne e)).
Proof.
  intros He Hk. unfold wwith_cell. destruct (fst h !! l) as [[s|]|] eqn:E; try exact I.
  pose proof (ends_ne _ He (<[l := WBorrowed]> (fst h), snd h) s) as H1.
  pose proof (kb_ne _ _ (Hk l) (<[l := WBorrowed]> (fst h), snd h) s (lookup_insert _ _ _)) as H2.
  destruct (wne e (<[l := WBorrowed]> (fst h), snd h) s) as [| |h1 [s1 [[ev|]|err]]]; simpl in *; auto;
    (apply En_shared with s1; [apply lookup_insert|]); rewrite insert_insert, insert_id; auto.
Qed.

Ltac end_go He Hk := first
  [ exact I
  | solve [constructor; auto]
  | apply ends_with_cell; assumption
  | apply (ends_ne _ He) | apply (ends_sk _ He) | apply (ends_dr _ He)
  | apply ends_on_ok; [end_go He Hk|intros ? ? ?; solve [constructor; auto]|intros; end_go He Hk|intros ? ? ?; end_go He Hk]
  | match goal with |- ends (match ?x with _ => _ end) => destruct x eqn:?; end_go He Hk end
  | apply ends_bind; intros; end_go He Hk ].

Lemma ends_ne_body e h s : eng_ends e -> (forall l, kbe l e) -> ends (wne_body e h s).
Proof.
  intros He Hk. destruct s; cbn [wne_body]; unfold wpassthrough, wemit, wfinish, wfail; cbv zeta; try (end_go He Hk).
  pose proof (ends_ne _ He h s) as H.
  destruct (wne e h s) as [| |h1 [s1 [[ev|]|err]]]; simpl in *; auto; now constructor.
Qed.
Lemma ends_run n : eng_ends (wrun n).
Proof.
  induction n as [|n IH]; [split; intros; exact I|]. split; intros h s; cbn [wrun wne wsk wdr].
  - apply ends_ne_body; [exact IH|intros l; apply kbe_run].
  - unfold wsk_body. pose proof (ends_ne _ IH h s) as H.
    destruct (wne (wrun n) h s) as [| |h1 [s1 [[ev|]|err]]]; simpl in *; auto.
    destruct ev; try exact I. apply IH.
  - unfold wdr_body. pose proof (ends_ne _ IH h s) as H.
    destruct (wne (wrun n) h s) as [| |h1 [s1 [[ev|]|err]]]; simpl in *; auto; try apply IH; now constructor.
Qed.

Lemma stops_ends o h s r : ends o -> o = WDone h (s, r) -> Stops r -> Ended (fst h) s.
Proof. intros H -> [->|[err ->]]; exact H. Qed.

Lemma ne_le n m h s : n <= m -> wle (W:=W) (wne (wrun n) h s) (wne (wrun m) h s).
Proof. induction 1 as [|m _ IH]; [apply wle_refl|]. eapply wle_trans; [exact IH|]. apply wle_run. Qed.
Lemma sk_le n m h s : n <= m -> wle (W:=W) (wsk (wrun n) h s) (wsk (wrun m) h s).
Proof. induction 1 as [|m _ IH]; [apply wle_refl|]. eapply wle_trans; [exact IH|]. apply wle_run. Qed.

Lemma ended_answers h s : Ended h s ->
  forall w h' s' r, WAnswers (h, w) s h' s' r <-> h' = (h, w) /\ s' = s /\ r = inl None.
Proof.
  intros H w h' s' r. destruct (ended_stays _ _ H w) as [j Hj]. split.
  - intros [k Hk]. specialize (Hj (max j k) ltac:(lia)).
    destruct (ne_le k (max j k) (h, w) s ltac:(lia)) as [E|E]; [congruence|]. rewrite Hk, Hj in E.
    injection E as -> -> ->. auto.
  - intros (-> & -> & ->). exists j. now apply Hj.
Qed.
Lemma ended_answers_skip h s : Ended h s ->
  forall w h' s' r, WAnswersSkip (h, w) s h' s' r <-> h' = (h, w) /\ s' = s /\ r = inl None.
Proof.
  intros H w h' s' r.
  destruct (sk_intro _ _ (ended_stays _ _ H w)) as [j Hj].
  split.
  - intros [k Hk]. specialize (Hj (max j k) ltac:(lia)).
    destruct (sk_le k (max j k) (h, w) s ltac:(lia)) as [E|E]; [congruence|]. rewrite Hk, Hj in E.
    injection E as -> -> ->. auto.
  - intros (-> & -> & ->). exists j. now apply Hj.
Qed.

Lemma answers_ended h s h' s' r : WAnswers h s h' s' r \/ WAnswersSkip h s h' s' r -> Stops r ->
  Ended (fst h') s'.
Proof.
  intros [[n Hn]|[n Hn]] Hr.
  - exact (stops_ends _ _ _ _ (ends_ne _ (ends_run n) h s) Hn Hr).
  - exact (stops_ends _ _ _ _ (ends_sk _ (ends_run n) h s) Hn Hr).
Qed.
End World.

Lemma stays {W} (h : wheap W) s h' s' r : WAnswers h s h' s' r -> Stops r ->
  forall w h2 s2 r2, WAnswers (fst h', w) s' h2 s2 r2 <-> h2 = (fst h', w) /\ s2 = s' /\ r2 = inl None.
Proof. intros H Hr. apply ended_answers. eapply answers_ended; eauto. Qed.
Lemma stays_skip {W} (h : wheap W) s h' s' r : WAnswersSkip h s h' s' r -> Stops r ->
  forall w h2 s2 r2, WAnswersSkip (fst h', w) s' h2 s2 r2 <-> h2 = (fst h', w) /\ s2 = s' /\ r2 = inl None.
Proof. intros H Hr. apply ended_answers_skip. eapply answers_ended; eauto. Qed.

Lemma asked_ended {W} (h : wheap W) s rs : WAsked h s rs -> Ended (fst h) s -> forall r, In r rs -> r = inl None.
Proof.
  induction 1 as [|h s h' s' r w rs H Ha IH|h s h' s' r w rs H Ha IH]; intros He x; [intros []| |];
    destruct h as [h v]; cbn [fst] in *.
  - apply (ended_answers _ _ He) in H as (-> & -> & ->). intros [<-|Hx]; auto.
  - apply (ended_answers_skip _ _ He) in H as (-> & -> & ->). intros [<-|Hx]; auto.
Qed.
Lemma asked_stays {W} (h : wheap W) s rs r rs' : WAsked h s (rs ++ r :: rs') -> Stops r ->
  forall x, In x rs' -> x = inl None.
Proof.
  intros H Hr. revert h s H. induction rs as [|r0 rs IH]; intros h s H.
  - intros x Hin. inversion H as [|? ? h' s' ? ? ? Hx Ha|? ? h' s' ? ? ? Hx Ha]; subst.
    + apply (asked_ended _ _ _ Ha); [|exact Hin]. exact (answers_ended _ _ _ _ _ (or_introl Hx) Hr).
    + apply (asked_ended _ _ _ Ha); [|exact Hin]. exact (answers_ended _ _ _ _ _ (or_intror Hx) Hr).
  - inversion H; subst; eauto.
Qed.
Lemma asked_more {W} (h : wheap W) s rs r : WAsked h s (rs ++ [r]) -> Stops r ->
  forall n, WAsked h s (rs ++ r :: repeat (inl None) n).
Proof.
  intros H Hr n. revert h s H. induction rs as [|r0 rs IH]; intros h s H.
  - assert (forall h' s' (w : W), Ended h' s' -> WAsked (h', w) s' (repeat (inl None) n)) as Hn.
    { intros h' s' w He. induction n as [|n IHn]; [constructor|].
      eapply (WAsked_next _ _ (h', w) s' _ w); [|exact IHn]. apply ended_answers; auto. }
    inversion H as [|? ? h' s' ? w ? Hx Ha|? ? h' s' ? w ? Hx Ha]; subst.
    + eapply (WAsked_next _ _ _ _ _ w); [exact Hx|]. apply Hn. eapply answers_ended; eauto.
    + eapply (WAsked_skip _ _ _ _ _ w); [exact Hx|]. apply Hn. eapply answers_ended; eauto.
  - inversion H as [|? ? h' s' ? w ? Hx Ha|? ? h' s' ? w ? Hx Ha]; subst.
    + eapply (WAsked_next _ _ _ _ _ w); eauto.
    + eapply (WAsked_skip _ _ _ _ _ w); eauto.
Qed.
