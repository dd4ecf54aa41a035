(** The events produced by each kind of stream, except selections. *)
From Coq Require Import String ZArith.
From stdpp Require Import gmap.
From Verif Require Import Text Event Input Parse Selector Machine StreamBase SpecTransform Trace.
Local Open Scope nat_scope.

(** ** Generic steps *)

Lemma ne_intro H s H' x :
  Ev (fun m => ne_body (run m) H s) H' x -> Ev (fun m => ne (run m) H s) H' x.
Proof. apply ev_S. reflexivity. Qed.

Ltac ne_by E :=
  let n := fresh "n" in let Hn := fresh "Hn" in
  destruct E as [n Hn]; apply ne_intro; exists n; intros ? ?; cbn [ne_body];
  unfold passthrough, on_ok; rewrite Hn by assumption; reflexivity.
Ltac ne_now := apply ne_intro; exists 0; intros ? ?; reflexivity.

Lemma strm_wrap (C : strm -> strm) elem Q t s evs h :
  (forall H H' s s' r, Ev (fun m => ne (run m) H s) H' (s', r) ->
     exists s2, Ev (fun m => ne (run m) H (C s)) H' (s2, r) /\
                (forall ev, r = inl (Some ev) -> s2 = C s')) ->
  Strm elem Q t s evs h -> Strm elem Q t (C s) evs h.
Proof.
  intros HC. revert s evs h. apply (strm_ind _ _ _ (fun s evs h => Strm elem Q t (C s) evs h)).
  intros s evs h He Hs. constructor; [exact He|]. intros hf Hd.
  destruct (Hs hf Hd) as (s' & h' & r & E & Hd' & HA).
  destruct (HC _ _ _ _ _ E) as (s2 & E2 & Hs2).
  exists s2, h', r. split; [exact E2|split; [exact Hd'|]].
  destruct HA as [[X Y]|ev evs' E1 E3 [X Y]|E1 E3 X|err E1 E3].
  - rewrite (Hs2 _ eq_refl). now apply After_noop.
  - rewrite (Hs2 _ eq_refl). eapply After_event; eauto.
  - now apply After_end.
  - eapply After_err; eauto.
Qed.

Lemma strm_noop elem Q t s0 s evs h :
  (forall H, Ev (fun m => ne (run m) H s0) H (s, inl (Some Noop))) ->
  Strm elem Q t s evs h -> Strm elem Q t s0 evs h.
Proof.
  intros H0 Hs. constructor; [apply (strm_inv _ _ _ _ _ _ Hs)|].
  intros hf Hd. exists s, h, (inl (Some Noop)). split; [apply H0|split; [exact Hd|]].
  now apply After_noop.
Qed.

Lemma strm_error elem Q s0 s err h :
  (forall H, Ev (fun m => ne (run m) H s0) H (s, inr err)) ->
  Strm elem Q (Some err) s0 [] h.
Proof.
  intros H0. constructor; [discriminate|]. intros hf Hd.
  exists s, h, (inr err). split; [apply H0|split; [exact Hd|]]. eapply After_err; eauto.
Qed.

Lemma strm_finish elem (Q : heap -> Prop) s0 s h :
  (forall H, Ev (fun m => ne (run m) H s0) H (s, inl None)) -> Post Q h ->
  Strm elem Q None s0 [] h.
Proof.
  intros H0 HQ. constructor; [auto|]. intros hf Hd.
  exists s, h, (inl None). split; [apply H0|split; [exact Hd|]]. now apply After_end.
Qed.

(** First one stream, then another. *)
Definition seq_result (r : stream_result) : stream_result :=
  match r with inl None => inl (Some Noop) | r => r end.
Definition seq_state (C : strm -> strm) (D s' s2 : strm) (r : stream_result) : Prop :=
  match r with
  | inl (Some _) => s2 = C s'
  | inl None => s2 = D
  | inr _ => True
  end.

Lemma strm_seq (C : strm -> strm) D e1 (Q1 : heap -> Prop) t1 e Q t2 s evs1 evs2 h :
  (forall H H' s s' r, Ev (fun m => ne (run m) H s) H' (s', r) ->
     exists s2, Ev (fun m => ne (run m) H (C s)) H' (s2, seq_result r) /\
                seq_state C D s' s2 r) ->
  Strm e1 Q1 t1 s evs1 h ->
  (t1 = None -> forall hq, Q1 hq -> Strm e Q t2 D evs2 hq) ->
  (e = true -> evs2 <> []) ->
  Strm e Q (snd (tapp (evs1, t1) (evs2, t2))) (C s) (fst (tapp (evs1, t1) (evs2, t2))) h.
Proof.
  intros HC H1 H2 He2. revert s evs1 h H1.
  apply (strm_ind _ _ _ (fun s evs1 h =>
    Strm e Q (snd (tapp (evs1, t1) (evs2, t2))) (C s) (fst (tapp (evs1, t1) (evs2, t2))) h)).
  intros s evs h He Hs. constructor.
  { intros -> . unfold tapp; destruct t1; simpl; [discriminate|]. intros _ Hnil.
    apply app_eq_nil in Hnil as [_ Hnil]. now destruct (He2 eq_refl). }
  intros hf Hd.
  destruct (Hs hf Hd) as (s' & h' & r & E & Hd' & HA).
  destruct (HC _ _ _ _ _ E) as (s2 & E2 & Hs2).
  destruct HA as [[X Y]|ev evs' E1 E3 [X Y]|E1 E3 (hq & Hsub & X)|err E1 E3]; simpl in E2, Hs2.
  - exists s2, h', (inl (Some Noop)). subst s2. split; [exact E2|split; [exact Hd'|]].
    now apply After_noop.
  - exists s2, h', (inl (Some ev)). subst s2. split; [exact E2|split; [exact Hd'|]].
    apply After_event with (evs' := fst (tapp (evs', t1) (evs2, t2))); [|exact E3|].
    + subst evs. unfold tapp. now destruct t1.
    + revert Y. unfold tapp. destruct t1; exact (fun x => x).
  - exists s2, h', (inl (Some Noop)). subst s2 evs t1. split; [exact E2|split; [exact Hd'|]].
    apply After_noop. simpl. eapply strm_mono; [apply H2|]; eauto.
  - exists s2, h', (inr err). subst evs t1. split; [exact E2|split; [exact Hd'|]].
    eapply After_err; reflexivity.
Qed.

(** The same for streams that skip [Noop]s of the first stream. *)
Lemma strm_seq_sk (C : strm -> strm) D e1 (Q1 : heap -> Prop) t1 Q t2 s evs1 evs2 h :
  (forall H H' s s' r, Ev (fun m => sk (run m) H s) H' (s', r) ->
     exists s2, Ev (fun m => ne (run m) H (C s)) H' (s2, seq_result r) /\
                seq_state C D s' s2 r) ->
  Strm e1 Q1 t1 s evs1 h ->
  (t1 = None -> forall hq, Q1 hq -> Strm false Q t2 D evs2 hq) ->
  Strm false Q (snd (tapp (evs1, t1) (evs2, t2))) (C s) (fst (tapp (evs1, t1) (evs2, t2))) h.
Proof.
  intros HC H1 H2. revert s h H1.
  induction evs1 as [|ev0 evs1 IH]; intros s h H1; constructor; try discriminate;
    intros hf Hd; destruct (strm_sk _ _ _ _ _ _ H1 hf Hd) as (s' & h' & r & E & Hd' & HA);
    destruct (HC _ _ _ _ _ E) as (s2 & E2 & Hs2);
    destruct HA as [ev evs' E1 E3 X|E1 E3 (hq & Hsub & X)|err E1 E3]; try discriminate;
    simpl in E2, Hs2.
  - exists s2, h', (inl (Some Noop)). subst s2 t1. split; [exact E2|split; [exact Hd'|]].
    apply After_noop. simpl. eapply strm_mono; [apply H2|]; eauto.
  - exists s2, h', (inr err). subst t1. split; [exact E2|split; [exact Hd'|]].
    eapply After_err; reflexivity.
  - injection E1 as <- <-.
    exists s2, h', (inl (Some ev0)). subst s2. split; [exact E2|split; [exact Hd'|]].
    apply After_event with (evs' := fst (tapp (evs1, t1) (evs2, t2))); [|exact E3|].
    + unfold tapp. now destruct t1.
    + specialize (IH _ _ X). revert IH. unfold tapp. destruct t1; exact (fun x => x).
Qed.

(** ** Sources *)

Lemma drop_nth (evs : list event) i :
  match nth_error evs i with
  | Some ev => drop i evs = ev :: drop (S i) evs
  | None => drop i evs = []
  end.
Proof.
  revert i. induction evs as [|ev evs IH]; intros [|i]; simpl; auto. apply IH.
Qed.

Definition NoNoop (evs : list event) : Prop := Forall (fun ev => ev <> Noop) evs.

Lemma strm_template elem Q evs i h : Post Q h -> NoNoop evs ->
  Strm elem Q None (STemplate evs i) (drop i evs) h.
Proof.
  intros HQ Hn. remember (drop i evs) as rest eqn:Er. revert i Er.
  induction rest as [|ev rest IH]; intros i Er; pose proof (drop_nth evs i) as Hi;
    destruct (nth_error evs i) as [ev'|] eqn:E.
  - congruence.
  - eapply strm_finish; [|exact HQ]. intros H. apply ne_intro. exists 0. intros m _.
    cbn [ne_body]. rewrite E. reflexivity.
  - rewrite Hi in Er. injection Er as -> ->. constructor; [discriminate|].
    intros hf Hd. exists (STemplate evs (S i)), h, (inl (Some ev')). split; [|split; [exact Hd|]].
    + apply ne_intro. exists 0. intros m _. cbn [ne_body]. rewrite E. reflexivity.
    + eapply After_event; eauto. unfold NoNoop in Hn. rewrite Forall_forall in Hn. apply Hn.
      apply nth_error_In in E. now apply elem_of_list_In.
  - congruence.
Qed.
Lemma strm_template0 elem Q evs h : Post Q h -> NoNoop evs ->
  Strm elem Q None (STemplate evs 0) evs h.
Proof. apply (strm_template elem Q evs 0 h). Qed.

Lemma strm_data elem Q d h : Post Q h -> Strm elem Q None (SContent (Some d)) [Data d] h.
Proof.
  intros HQ. constructor; [discriminate|]. intros hf Hd.
  exists (SContent None), h, (inl (Some (Data d))). split; [ne_now|split; [exact Hd|]].
  eapply After_event; eauto.
  eapply strm_finish; [|exact HQ]. intros H. ne_now.
Qed.

Lemma strm_user Q evs t h : Post Q h -> Strm false Q t (SUser evs t) (strip_noops evs) h.
Proof.
  intros HQ. induction evs as [|ev evs IH].
  - destruct t as [err|].
    + constructor; [discriminate|]. intros hf Hd. exists (SUser [] None), h, (inr err).
      split; [ne_now|split; [exact Hd|now apply After_err]].
    + eapply strm_finish; [|exact HQ]. intros H. ne_now.
  - constructor; [discriminate|]. intros hf Hd. exists (SUser evs t), h, (inl (Some ev)).
    split; [ne_now|split; [exact Hd|]].
    destruct ev; try (eapply After_event; [reflexivity|discriminate|exact IH]).
    apply After_noop. exact IH.
Qed.

(** ** Wrappers *)

Lemma strm_fallible elem Q t s evs h : Strm elem Q t s evs h ->
  Strm elem Q t (fallible_new (inl s)) evs h.
Proof.
  intros Hs. apply (strm_noop _ _ _ _ (SFallible (Some (FEmit s)))).
  - intros H. ne_now.
  - apply (strm_wrap (fun s => SFallible (Some (FEmit s)))); [|exact Hs].
    intros H H' s0 s' [[ev|]|err] E.
    + exists (SFallible (Some (FEmit s'))). split; [ne_by E|congruence].
    + exists (SFallible None). split; [ne_by E|congruence].
    + exists (SFallible None). split; [ne_by E|congruence].
Qed.
Lemma strm_failed elem Q err h : Strm elem Q (Some err) (fallible_new (inr err)) [] h.
Proof. apply (strm_error _ _ _ (SFallible None)). intros H. ne_now. Qed.

Lemma strm_expand elem Q t s evs h : Strm elem Q t s evs h ->
  Strm elem Q t (SExpand (Some (XEmitStream s))) evs h.
Proof.
  apply (strm_wrap (fun s => SExpand (Some (XEmitStream s)))).
  intros H H' s0 s' [[ev|]|err] E.
  - exists (SExpand (Some (XEmitStream s'))). split; [ne_by E|congruence].
  - exists (SExpand None). split; [ne_by E|congruence].
  - exists (SExpand None). split; [ne_by E|congruence].
Qed.
Lemma strm_expand_close elem (Q : heap -> Prop) tag h : Post Q h ->
  Strm elem Q None (SExpand (Some (XEmitClosingTag tag))) [ClosingTag tag] h.
Proof.
  intros HQ. constructor; [discriminate|]. intros hf Hd.
  exists (SExpand None), h, (inl (Some (ClosingTag tag))). split; [ne_now|split; [exact Hd|]].
  eapply After_event; eauto.
  eapply strm_finish; [|exact HQ]. intros H. ne_now.
Qed.

Lemma strm_either elem Q t first s evs h : Strm elem Q t s evs h ->
  Strm elem Q t (SApplyEither first s) evs h.
Proof.
  apply (strm_wrap (SApplyEither first)). intros H H' s0 s' r E.
  exists (SApplyEither first s'). split; [ne_by E|congruence].
Qed.

Lemma strm_fallback elem Q t s evs h : Strm elem Q t s evs h ->
  Strm elem Q t (SRepeatOrElse (Some (ROEFallback s))) evs h.
Proof.
  apply (strm_wrap (fun s => SRepeatOrElse (Some (ROEFallback s)))).
  intros H H' s0 s' [[ev|]|err] E.
  - exists (SRepeatOrElse (Some (ROEFallback s'))). split; [ne_by E|congruence].
  - exists (SRepeatOrElse None). split; [ne_by E|congruence].
  - exists (SRepeatOrElse None). split; [ne_by E|congruence].
Qed.
Lemma strm_roe_repeat elem Q t s evs h : Strm elem Q t s evs h ->
  Strm elem Q t (SRepeatOrElse (Some (ROERepeat s))) evs h.
Proof.
  apply (strm_wrap (fun s => SRepeatOrElse (Some (ROERepeat s)))).
  intros H H' s0 s' [[ev|]|err] E.
  - exists (SRepeatOrElse (Some (ROERepeat s'))). split; [ne_by E|congruence].
  - exists (SRepeatOrElse None). split; [ne_by E|congruence].
  - exists (SRepeatOrElse None). split; [ne_by E|congruence].
Qed.

(** ** Content *)

Lemma strm_content Q c h : Post Q h -> NoNoop (fst (d_content c)) ->
  Strm false Q (snd (d_content c)) (into_stream c) (fst (d_content c)) h.
Proof.
  intros HQ. revert c. fix IH 1. intros [events|d|v|s|z|events stop|[c|e]] Hn; simpl in *.
  - now apply strm_template0.
  - now apply strm_data.
  - now apply strm_data.
  - now apply strm_data.
  - now apply strm_data.
  - now apply strm_user.
  - apply strm_fallible. apply IH. exact Hn.
  - apply strm_failed.
Qed.

(** ** Sequences *)

Lemma combine_step H H' s2 s s' r : Ev (fun m => sk (run m) H s) H' (s', r) ->
  exists s1, Ev (fun m => ne (run m) H (SCombine (Some (CmbFirst s s2)))) H' (s1, seq_result r) /\
             seq_state (fun s => SCombine (Some (CmbFirst s s2)))
               (SCombine (Some (CmbSecond s2))) s' s1 r.
Proof.
  intros E. destruct r as [[ev|]|err]; simpl.
  - eexists. split; [ne_by E|reflexivity].
  - eexists. split; [ne_by E|reflexivity].
  - exists (SCombine None). split; [ne_by E|exact I].
Qed.

Lemma strm_second elem Q t s evs h : Strm elem Q t s evs h ->
  Strm false Q t (SCombine (Some (CmbSecond s))) evs h.
Proof.
  intros Hs. revert s h Hs.
  induction evs as [|ev0 evs IH]; intros s h Hs; constructor; try discriminate;
    intros hf Hd; destruct (strm_sk _ _ _ _ _ _ Hs hf Hd) as (s' & h' & r & E & Hd' & HA);
    destruct HA as [ev evs' E1 E3 X|E1 E3 X|err E1 E3]; try discriminate.
  - exists (SCombine None), h', (inl None). split; [ne_by E|split; [exact Hd'|]].
    now apply After_end.
  - exists (SCombine None), h', (inr err). split; [ne_by E|split; [exact Hd'|]].
    now apply After_err.
  - injection E1 as <- <-. exists (SCombine (Some (CmbSecond s'))), h', (inl (Some ev0)).
    split; [ne_by E|split; [exact Hd'|]]. eapply After_event; eauto.
Qed.

Lemma strm_combine e1 e2 (Q1 : heap -> Prop) t1 Q t2 s1 s2 evs1 evs2 h :
  Strm e1 Q1 t1 s1 evs1 h ->
  (t1 = None -> forall hq, Q1 hq -> Strm e2 Q t2 s2 evs2 hq) ->
  Strm false Q (snd (tapp (evs1, t1) (evs2, t2))) (SCombine (Some (CmbFirst s1 s2)))
       (fst (tapp (evs1, t1) (evs2, t2))) h.
Proof.
  intros H1 H2.
  apply (strm_seq_sk (fun s1 => SCombine (Some (CmbFirst s1 s2))) (SCombine (Some (CmbSecond s2)))
           e1 Q1 t1 Q t2 s1 evs1 evs2 h); auto.
  - intros H H' s s' r E. now apply combine_step.
  - intros Ht hq HQ. eapply strm_second. apply H2; auto.
Qed.

Lemma strm_append elem Q t s evs h c : Strm elem Q t s evs h -> NoNoop (fst (d_content c)) ->
  Strm false Q (snd (tapp (evs, t) (d_content c))) (append_new s (into_stream c))
       (fst (tapp (evs, t) (d_content c))) h.
Proof.
  intros Hs Hc. rewrite (surjective_pairing (d_content c)).
  apply strm_combine with (e1 := elem) (e2 := false) (Q1 := Q); auto.
  intros _ hq HQ. apply strm_content; auto. now apply post_intro.
Qed.

Lemma strm_prepend elem Q t s evs h c : Strm elem Q t s evs h -> NoNoop (fst (d_content c)) ->
  Strm false Q (snd (tapp (d_content c) (evs, t))) (prepend_new s (into_stream c))
       (fst (tapp (d_content c) (evs, t))) h.
Proof.
  intros Hs Hc. rewrite (surjective_pairing (d_content c)).
  apply strm_combine with (e1 := false) (e2 := elem) (Q1 := fun hq => Strm elem Q t s evs hq); auto.
  apply strm_content; auto. now apply post_intro.
Qed.

Lemma strm_remove elem Q t s evs h : Strm elem Q t s evs h -> Strm false Q t (SRemove s) [] h.
Proof.
  intros Hs. constructor; [discriminate|]. intros hf Hd.
  destruct (strm_dr _ _ _ _ _ _ Hs hf Hd) as (s' & h' & E & Hd' & HQ).
  exists s', h', (match t with None => inl None | Some err => inr err end).
  split; [|split; [exact Hd'|]].
  - eapply ev_S; [|exact E]. reflexivity.
  - destruct t; [now apply After_err|apply After_end; auto].
Qed.

Lemma strm_replace elem Q t s evs h c : Strm elem Q t s evs h -> NoNoop (fst (d_content c)) ->
  Strm false Q (snd (tapp (d_content c) (d_remove (evs, t)))) (replace_new s (into_stream c))
       (fst (tapp (d_content c) (d_remove (evs, t)))) h.
Proof.
  intros Hs Hc. apply strm_remove in Hs. eapply strm_prepend in Hs; [|exact Hc]. exact Hs.
Qed.

(** ** Collecting streams *)

Lemma strm_as_template elem Q t s evs h f : Strm elem Q t s evs h ->
  (forall evs', t = None -> f evs = inl evs' -> NoNoop evs') ->
  Strm false Q (snd (d_as_template f (evs, t))) (STemplateApply (Some (TACollect s f)))
       (fst (d_as_template f (evs, t))) h.
Proof.
  intros Hs Hf. constructor; [discriminate|]. intros hf Hd.
  destruct (strm_co _ _ _ _ _ _ Hs hf [] Hd) as (h' & E & Hd' & HQ).
  unfold d_as_template. destruct t as [err|]; simpl in *.
  - exists (STemplateApply None), h', (inr err). split; [ne_by E|split; [exact Hd'|]].
    now apply After_err.
  - destruct (f evs) as [evs'|err] eqn:Ef; simpl.
    + exists (STemplateApply (Some (TAEmit evs' 0))), h', (inl (Some Noop)).
      split; [|split; [exact Hd'|]].
      * destruct E as [n Hn]. apply ne_intro. exists n. intros m Hm. cbn [ne_body].
        rewrite Hn by auto. cbn [obind]. rewrite Ef. reflexivity.
      * apply After_noop. specialize (HQ eq_refl). specialize (Hf _ eq_refl eq_refl).
        clear -HQ Hf. 
        assert (forall i, Strm false Q None (STemplateApply (Some (TAEmit evs' i))) (drop i evs') h')
          as Hgo; [|exact (Hgo 0)].
        intros i. remember (drop i evs') as rest eqn:Er. revert i Er.
        induction rest as [|ev rest IH]; intros i Er; pose proof (drop_nth evs' i) as Hi;
          destruct (nth_error evs' i) as [ev'|] eqn:E; try congruence.
        -- eapply strm_finish with (s := STemplateApply None); [|exact HQ]. intros H.
           apply ne_intro. exists 1. intros [|m] Hm; [lia|]. cbn [ne_body run ne]. rewrite E. reflexivity.
        -- rewrite Hi in Er. injection Er as -> ->. constructor; [discriminate|].
           intros hf Hd. exists (STemplateApply (Some (TAEmit evs' (S i)))), h', (inl (Some ev')).
           split; [|split; [exact Hd|]].
           ++ apply ne_intro. exists 1. intros [|m] Hm; [lia|]. cbn [ne_body run ne]. rewrite E.
              reflexivity.
           ++ eapply After_event; eauto. unfold NoNoop in Hf. rewrite Forall_forall in Hf.
              apply Hf. apply nth_error_In in E. now apply elem_of_list_In.
    + exists (STemplateApply None), h', (inr err). split; [|split; [exact Hd'|]].
      * destruct E as [n Hn]. apply ne_intro. exists n. intros m Hm. cbn [ne_body].
        rewrite Hn by auto. cbn [obind]. rewrite Ef. reflexivity.
      * now apply After_err.
Qed.
