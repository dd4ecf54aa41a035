(** Running a pipeline gives its trace. *)
From Coq Require Import String ZArith.
From stdpp Require Import gmap.
From Verif Require Import Text Event Input Parse Selector Machine StreamBase.
From Verif Require Import SpecText SpecAttr SpecTransform AttrProofs AttrProofs2 Trace.
From Verif Require Import TraceProofs StreamProofs StreamProofs2 StreamProofs3.
Local Open Scope nat_scope.

(** ** Well formed arguments *)

Definition ContentOk (c : content) : Prop := Good false (d_content c).
Definition FunctionOk (f : list event -> list event + stream_error) : Prop :=
  forall evs evs', nest [] evs = Some [] -> f evs = inl evs' -> nest [] evs' = Some [].
Definition NameOk (name : ident + identifier_error) : Prop :=
  forall i, name = inl i -> ValidName (id_str i).
Definition ArgsOk (o : op) : Prop :=
  match o with
  | OAddAttribute name _ | OAddToAttribute name _ _ | OReplaceAttribute name _
  | OSetAttribute name _ | ORemoveAttribute name | OAddClass name | ORemoveClass name
  | OSetId name => NameOk name
  | OApplyAsTemplate f => FunctionOk f
  | OPrepend c | OAppend c | OReplace c
  | OPrependContents c | OAppendContents c | OReplaceContents c => ContentOk c
  | _ => True
  end.
Inductive Well (o : op) : Prop :=
| Well_intro : ArgsOk o -> (forall p, Sub o p -> forall o', In o' p -> Well o') -> Well o.
Definition WellP (p : pipeline) : Prop := forall o, In o p -> Well o.

Lemma well_args o : Well o -> ArgsOk o.
Proof. now intros []. Qed.
Lemma well_sub o p : Well o -> Sub o p -> WellP p.
Proof. intros [_ H] Hp o' Ho'. exact (H p Hp o' Ho'). Qed.
Lemma wellp_nil : WellP [].
Proof. intros o []. Qed.
Lemma wellp_cons o p : WellP (o :: p) <-> Well o /\ WellP p.
Proof.
  split.
  - intros H. split; [apply H; now left|]. intros o' Ho'. apply H. now right.
  - intros [H1 H2] o' [<-|Ho']; auto.
Qed.
Lemma wellp_app p q : WellP (p ++ q) <-> WellP p /\ WellP q.
Proof.
  induction p as [|o p IH]; simpl.
  - split; [split; [apply wellp_nil|auto]|tauto].
  - rewrite !wellp_cons, IH. tauto.
Qed.

(** ** Traces stay good *)

(** [g] turns good traces into good traces and does not lose errors. *)
Definition Keeps (g : trace -> trace) (e e' : bool) : Prop :=
  forall x, Good e x -> Good e' (g x) /\ (snd x <> None -> snd (g x) <> None).

Lemma keeps_strict g e e' : Keeps g e e' -> Strict g e.
Proof. intros H evs err Hg. apply (H _ Hg). discriminate. Qed.
Lemma keeps_comp f g e1 e2 e3 : Keeps f e1 e2 -> Keeps g e2 e3 -> Keeps (fun x => g (f x)) e1 e3.
Proof.
  intros Hf Hg x Hx. destruct (Hf x Hx) as [H1 H2]. destruct (Hg _ H1) as [H3 H4]. auto.
Qed.
Lemma keeps_weaken g e e' : Keeps g e e' -> Keeps g e false.
Proof. intros H x Hx. destruct (H x Hx). split; auto. eapply good_false; eauto. Qed.
Lemma keeps_id e : Keeps (fun x => x) e e.
Proof. intros x Hx. auto. Qed.
Lemma keeps_error e e' err : Keeps (fun _ => ([], Some err)) e e'.
Proof.
  intros x _. split; [|discriminate]. unfold Good. simpl. destruct e'; [exact I|eauto].
Qed.

Lemma good_tapp x y : Good false x -> Good false y -> Good false (tapp x y).
Proof.
  destruct x as [a [e|]], y as [b t]; simpl; auto. unfold Good; simpl.
  intros Ha. rewrite nest_app, Ha. auto.
Qed.
Lemma good_removed e x : Good e x -> Good false (d_remove x).
Proof. destruct x as [evs [err|]]; unfold Good; simpl; eauto. Qed.
Lemma content_good c : ContentOk c -> Good false (d_content c).
Proof. auto. Qed.

Lemma keeps_remove e : Keeps d_remove e false.
Proof. intros x Hx. split; [eapply good_removed; eauto|]. destruct x. auto. Qed.
Lemma keeps_prepend c e : ContentOk c -> Keeps (fun x => tapp (d_content c) x) e false.
Proof.
  intros Hc x Hx. split.
  - apply good_tapp; [now apply content_good|eapply good_false; eauto].
  - unfold tapp. destruct (d_content c) as [a [err|]]; simpl; auto.
Qed.
Lemma keeps_append c e : ContentOk c -> Keeps (fun x => tapp x (d_content c)) e false.
Proof.
  intros Hc x Hx. split.
  - apply good_tapp; [eapply good_false; eauto|now apply content_good].
  - unfold tapp. destruct x as [a [err|]]; simpl; congruence.
Qed.
Lemma keeps_replace c e : ContentOk c -> Keeps (fun x => tapp (d_content c) (d_remove x)) e false.
Proof.
  intros Hc. apply (keeps_comp d_remove (fun x => tapp (d_content c) x) e false false).
  - apply keeps_remove.
  - now apply keeps_prepend.
Qed.

Lemma keeps_repeat gs e : (forall g, In g gs -> Keeps g e false) -> Keeps (d_repeat gs) e false.
Proof.
  intros Hgs [evs [err|]] Hx; unfold d_repeat; simpl.
  - split; [|congruence]. unfold Good. simpl. eauto.
  - split; [|congruence]. induction gs as [|g gs IH]; simpl; [reflexivity|].
    apply good_tapp; [apply (Hgs g); simpl; auto|]. apply IH. intros g' Hg'. apply Hgs. now right.
Qed.

Lemma keeps_as_template f e : FunctionOk f -> Keeps (d_as_template f) e false.
Proof.
  intros Hf [evs [err|]] Hx; unfold d_as_template; simpl.
  - split; [|congruence]. unfold Good. simpl. eauto.
  - split; [|congruence]. apply good_false in Hx. unfold Good in Hx |- *. simpl in Hx.
    destruct (f evs) as [evs'|err] eqn:Ef; simpl; eauto.
Qed.

Lemma keeps_contents g : Keeps g false false -> Keeps (d_contents g) true true.
Proof.
  intros Hg [evs t] Hx. destruct evs as [|ev rest].
  { unfold Good in *. destruct t as [err|]; simpl in *; [|contradiction]. split; [exact I|congruence]. }
  destruct ev; try (destruct t; contradiction); unfold Good in Hx; simpl in Hx.
  - destruct t as [err|]; simpl in Hx.
    + destruct Hx as [Hr Hx]. destruct (Hg (rest, Some err) Hx) as [H1 H2]. simpl in H2.
      unfold d_contents, tapp, Good. cbn [fst snd].
      specialize (H2 ltac:(discriminate)). unfold Good in H1.
      destruct (snd (g (rest, Some err))) as [err'|]; [|congruence]. simpl. auto.
    + destruct Hx as (Hr & kids & c & -> & Hc & Hk). unfold d_contents.
      rewrite removelast_last, last_last.
      destruct (Hg (kids, None) Hk) as [H1 _]. unfold tapp, Good in *. cbn [fst snd] in *.
      split; [|congruence].
      destruct (g (kids, None)) as [gk [gerr|]]; cbn [fst snd] in *; simpl.
      * auto.
      * split; auto. exists gk, c. auto.
  - destruct t as [err|]; simpl in Hx; [contradiction|]. destruct rest; [|contradiction].
    destruct (Hg ([], None) eq_refl) as [H1 _]. unfold d_contents, tapp, Good in *. cbn [fst snd] in *.
    split; [|congruence].
    destruct (g ([], None)) as [gk [gerr|]]; cbn [fst snd] in *; simpl.
    + auto.
    + split; auto. exists gk, tag. pose proof (valid_start_refl _ _ Hx). auto.
  - destruct t as [err|]; simpl in Hx; [contradiction|]. destruct rest; [|contradiction].
    unfold d_contents, Good. simpl. auto.
Qed.

Lemma keeps_attr c : ValidName (id_str (cmd_name c)) -> Keeps (d_attr c) true true.
Proof.
  intros Hc [evs t] Hx. destruct evs as [|ev rest].
  { unfold Good in *. destruct t as [err|]; simpl in *; [|contradiction]. split; [exact I|congruence]. }
  unfold Good in Hx |- *. destruct ev; try (destruct t; contradiction); simpl in Hx |- *.
  - split; [|auto]. destruct t as [err|]; simpl in *; destruct Hx as [Hv Hx];
      (split; [now apply valid_start_attr|exact Hx]).
  - destruct t as [err|]; simpl in Hx; [contradiction|]. destruct rest; [|contradiction].
    split; [now apply valid_start_attr|auto].
  - destruct t as [err|]; simpl in Hx; [contradiction|]. destruct rest; [|contradiction].
    split; [now apply valid_start_attr|auto].
Qed.
Lemma keeps_named name c : NameOk name ->
  (forall i, ValidName (id_str i) -> ValidName (id_str (cmd_name (c i)))) ->
  Keeps (d_named name c) true true.
Proof.
  intros Hn Hc. destruct name as [name|err]; simpl; [|apply keeps_error].
  apply keeps_attr, Hc. now apply Hn.
Qed.

(** Output of a selection that starts with the elements [st] open. *)
Definition Fits (st : list ident) (x : trace) : Prop :=
  exists st', nest st (fst x) = Some st' /\ (snd x = None -> st' = []).

Lemma good_fits x : Good false x <-> Fits [] x.
Proof.
  unfold Good, Fits. simpl. destruct (snd x); split.
  - intros [st H]. exists st. split; [auto|discriminate].
  - intros (st & H & _). eauto.
  - intros H. exists []. auto.
  - intros (st & H & H'). now rewrite H, H'.
Qed.
Lemma fits_tapp st x y : Good false x -> Fits st y -> Fits st (tapp x y).
Proof.
  intros Hx (st' & Hy & Ht). unfold Fits, tapp. destruct x as [a [err|]]; unfold Good in Hx; simpl in *.
  - destruct Hx as [st1 Hx]. exists (st1 ++ st). split; [|discriminate].
    pose proof (nest_frame _ _ _ st Hx) as Hf. exact Hf.
  - exists st'. split; [|auto]. pose proof (nest_frame _ _ _ st Hx) as Hf. simpl in Hf.
    now rewrite nest_app, Hf.
Qed.
Lemma fits_event st ev st1 x : nest1 st ev = Some st1 -> Fits st1 x -> Fits st (tapp ([ev], None) x).
Proof.
  intros E (st' & Hx & Ht). exists st'. unfold tapp. simpl. rewrite E. auto.
Qed.

Lemma select_fits m g direct t : (forall k, Keeps (g k) true false) ->
  forall n evs level calls st st',
  length evs <= n -> nest st evs = Some st' -> (t = None -> st' = []) -> level = length st ->
  Fits st (d_select n m g direct level calls evs t) /\
  (t <> None -> snd (d_select n m g direct level calls evs t) <> None).
Proof.
  intros Hg. induction n as [|n IH]; intros evs level calls st st' Hlen Hn Ht Hlev.
  - destruct evs; [|simpl in Hlen; lia]. simpl in *. split; [|auto]. injection Hn as <-.
    exists st. auto.
  - destruct evs as [|ev rest]; simpl.
    { split; [|auto]. injection Hn as <-. exists st. auto. }
    destruct (include direct level && matches m ev).
    + pose proof (single_good st ev rest st' t Hn Ht) as Hs.
      destruct (d_single ev rest t) as [el rest'] eqn:Ed. destruct Hs as [Hel Hrest].
      destruct (Hg calls el Hel) as [Hgel Hgs]. destruct Hrest as [(Happ & Htel & Hnest)|Htel].
      * assert (length rest' <= n) as Hlen'.
        { apply (f_equal (@length event)) in Happ. rewrite app_length in Happ. simpl in Happ, Hlen.
          destruct el as [[|e0 el] tel]; simpl in *; [|lia]. subst tel. contradiction. }
        destruct (IH rest' level (S calls) st st' Hlen' Hnest Ht Hlev) as [H1 H2].
        split; [now apply fits_tapp|]. intros Hne. specialize (H2 Hne). unfold tapp.
        destruct (snd (g calls el)) eqn:Es; [discriminate|exact H2].
      * specialize (Hgs Htel). destruct (g calls el) as [ge [gerr|]] eqn:Eg; [|simpl in Hgs; congruence].
        split; [|discriminate]. unfold Good in Hgel. simpl in Hgel. destruct Hgel as [st1 H1].
        exists (st1 ++ st). simpl. split; [|discriminate].
        exact (nest_frame _ _ _ st H1).
    + simpl in Hn. destruct (nest1 st ev) as [st1|] eqn:En; [|discriminate].
      pose proof (nest1_adjust _ _ _ En) as Ha. rewrite <- Hlev in Ha. rewrite Ha.
      simpl in Hlen. destruct (IH rest (length st1) calls st1 st' ltac:(lia) Hn Ht eq_refl) as [H1 H2].
      split; [now apply (fits_event st ev st1)|]. exact H2.
Qed.

Lemma select_once_fits m g direct t : Keeps g true false ->
  forall evs level st st',
  nest st evs = Some st' -> (t = None -> st' = []) -> level = length st ->
  Fits st (d_select_once m g direct level evs t) /\
  (t <> None -> snd (d_select_once m g direct level evs t) <> None).
Proof.
  intros Hg. induction evs as [|ev rest IH]; intros level st st' Hn Ht Hlev; simpl.
  - split; [|auto]. injection Hn as <-. exists st. auto.
  - destruct (include direct level && matches m ev).
    + pose proof (single_good st ev rest st' t Hn Ht) as Hs.
      destruct (d_single ev rest t) as [el rest'] eqn:Ed. destruct Hs as [Hel Hrest].
      destruct (Hg el Hel) as [Hgel Hgs]. destruct Hrest as [(Happ & Htel & Hnest)|Htel].
      * split.
        -- apply fits_tapp; auto. exists st'. auto.
        -- intros Hne. unfold tapp. destruct (snd (g el)) eqn:Es; [discriminate|exact Hne].
      * specialize (Hgs Htel). destruct (g el) as [ge [gerr|]] eqn:Eg; [|simpl in Hgs; congruence].
        split; [|discriminate]. unfold Good in Hgel. simpl in Hgel. destruct Hgel as [st1 H1].
        exists (st1 ++ st). simpl. split; [|discriminate].
        exact (nest_frame _ _ _ st H1).
    + simpl in Hn. destruct (nest1 st ev) as [st1|] eqn:En; [|discriminate].
      pose proof (nest1_adjust _ _ _ En) as Ha. rewrite <- Hlev in Ha. rewrite Ha.
      destruct (IH (length st1) st1 st' Hn Ht eq_refl) as [H1 H2].
      split; [now apply (fits_event st ev st1)|]. exact H2.
Qed.

Lemma keeps_select m g direct e : (forall k, Keeps (g k) true false) ->
  Keeps (fun x => d_select (length (fst x)) m g direct 0 0 (fst x) (snd x)) e false.
Proof.
  intros Hg x Hx. apply good_false, good_fits in Hx. destruct Hx as (st' & H1 & H2).
  destruct (select_fits m g direct (snd x) Hg (length (fst x)) (fst x) 0 0 [] st') as [H3 H4]; auto.
  split; auto. now apply good_fits.
Qed.
Lemma keeps_select_once m g direct e : Keeps g true false ->
  Keeps (fun x => d_select_once m g direct 0 (fst x) (snd x)) e false.
Proof.
  intros Hg x Hx. apply good_false, good_fits in Hx. destruct Hx as (st' & H1 & H2).
  destruct (select_once_fits m g direct (snd x) Hg (fst x) 0 [] st') as [H3 H4]; auto.
  split; auto. now apply good_fits.
Qed.

Lemma d_op_pipe : forall p x,
  (fix d_pipe (p : pipeline) (x : trace) {struct p} : trace :=
    match p with
    | [] => x
    | o :: p => d_pipe p (d_op o x)
    end) p x = d_pipe p x.
Proof. reflexivity. Qed.

Lemma op_pipe (P : op -> Prop) : (forall o, (forall p, Sub o p -> forall o', In o' p -> P o') -> P o) ->
  forall p o, In o p -> P o.
Proof. intros H p o _. now apply op_sub_ind. Qed.

Lemma keeps_pipe_of (p : pipeline) :
  (forall o, In o p -> forall e e', typed_op e o e' -> Well o -> Keeps (d_op o) e e') ->
  forall e e', typed e p e' -> WellP p -> Keeps (d_pipe p) e e'.
Proof.
  induction p as [|o p IH]; intros Ho e e' Ht Hw; inversion Ht; subst.
  - apply keeps_id.
  - apply wellp_cons in Hw as [Hw1 Hw2]. simpl.
    apply (keeps_comp (d_op o) (d_pipe p) e e2 e'); [apply Ho; simpl; auto|].
    apply IH; auto. intros o' Ho'. apply Ho. now right.
Qed.

Lemma keeps_op : forall o e e', typed_op e o e' -> Well o -> Keeps (d_op o) e e'.
Proof.
  apply (op_sub_ind (fun o => forall e e', typed_op e o e' -> Well o -> Keeps (d_op o) e e')).
  intros o IH e e' Ht Hw.
  assert (forall p e e', Sub o p -> typed e p e' -> Keeps (d_pipe p) e e') as Hp.
  { intros p e1 e2 Hs Hp. eapply keeps_pipe_of; eauto. eapply well_sub; eauto. }
  clear IH. pose proof (well_args _ Hw) as Hargs.
  assert (forall bs e, (forall p, In p bs -> Sub o p) ->
    Forall (fun p => exists e', typed e p e') bs ->
    Keeps (d_repeat (map (fun p x => d_pipe p x) bs)) e false) as Hrep.
  { intros bs e0 Hs Hf. apply keeps_repeat. intros g Hg. apply in_map_iff in Hg as (p & <- & Hin).
    rewrite Forall_forall in Hf. destruct (Hf p) as [e1 Hp1]; [now apply elem_of_list_In|].
    eapply keeps_weaken. eapply Hp; eauto. }
  inversion Ht; subst; try (apply keeps_error);
    try (apply keeps_named; [exact Hargs|intros i Hi; first [exact Hi|apply class_valid|apply id_valid]]; fail).
  - change (Keeps (d_pipe p) e e'). apply Hp; simpl; auto.
  - apply (keeps_weaken (fun x => x) e e), keeps_id.
  - apply keeps_id.
  - change (Keeps (d_pipe p) e (e'0 && other)). destruct other.
    + rewrite andb_true_r. apply Hp; simpl; auto.
    + rewrite andb_false_r. eapply keeps_weaken. apply Hp; simpl; eauto.
  - now apply keeps_as_template.
  - destruct sel as [m|err]; [|apply keeps_error]. apply (keeps_select m (fun k => d_pipe (b k))).
    intros k. destruct (H k) as [e1 He1]. eapply keeps_weaken. apply Hp; simpl; eauto.
  - destruct sel as [m|err]; [|apply keeps_error]. apply (keeps_select_once m (d_pipe p)).
    eapply keeps_weaken. apply Hp; simpl; eauto.
  - apply keeps_remove.
  - now apply keeps_prepend.
  - now apply keeps_append.
  - now apply keeps_replace.
  - apply (Hrep bs); auto.
  - destruct bs as [|b0 bs].
    + change (Keeps (d_pipe p) e false). eapply keeps_weaken. apply Hp; simpl; eauto.
    + apply (Hrep (b0 :: bs)); simpl; auto.
  - apply (keeps_contents (d_pipe p)). eapply keeps_weaken. apply Hp; simpl; eauto.
  - destruct sel as [m|err]; [|apply keeps_error].
    apply (keeps_contents (fun x => d_select (length (fst x)) m (fun k => d_pipe (b k)) direct 0 0 (fst x) (snd x))).
    apply keeps_select.
    intros k. destruct (H k) as [e1 He1]. eapply keeps_weaken. apply Hp; simpl; eauto.
  - destruct sel as [m|err]; [|apply keeps_error].
    apply (keeps_contents (fun x => d_select_once m (d_pipe p) direct 0 (fst x) (snd x))).
    apply keeps_select_once. eapply keeps_weaken. apply Hp; simpl; eauto.
  - apply (keeps_contents d_remove), keeps_remove.
  - apply (keeps_contents (fun x => tapp (d_content c) x)). now apply keeps_prepend.
  - apply (keeps_contents (fun x => tapp x (d_content c))). now apply keeps_append.
  - apply (keeps_contents (fun x => tapp (d_content c) (d_remove x))). now apply keeps_replace.
  - apply (keeps_contents (d_repeat (map (fun p x => d_pipe p x) bs))). apply (Hrep bs); auto.
  - destruct bs as [|b0 bs].
    + change (Keeps (d_pipe p) true false). eapply keeps_weaken. apply Hp; simpl; eauto.
    + eapply keeps_weaken.
      apply (keeps_contents (d_repeat (map (fun p x => d_pipe p x) (b0 :: bs)))).
      apply (Hrep (b0 :: bs)); simpl; auto.
  - apply keeps_attr, id_valid.
Qed.

Lemma keeps_pipe p e e' : typed e p e' -> WellP p -> Keeps (d_pipe p) e e'.
Proof. apply keeps_pipe_of. intros o _. apply keeps_op. Qed.

(** ** Building gives streams of the trace *)

Lemma builds_pure (C : strm -> strm) g e e' :
  (forall Q t s evs h, Strm e Q t s evs h -> Good e (evs, t) ->
     Strm e' Q (snd (g (evs, t))) (C s) (fst (g (evs, t))) h) ->
  Builds g (fun h s => Done h (C s)) e e'.
Proof.
  intros H Q t s evs h Hs Hg hf Hd. exists h, (C s). split; [reflexivity|split; [exact Hd|]].
  now apply H.
Qed.
Lemma builds_id e : Builds (fun x => x) (fun h s => Done h s) e e.
Proof. apply (builds_pure (fun s => s)). auto. Qed.
Lemma builds_weaken g bld e e' : Builds g bld e e' -> Builds g bld e false.
Proof.
  intros H Q t s evs h Hs Hg hf Hd. destruct (H Q t s evs h Hs Hg hf Hd) as (h' & s' & E & Hd' & Hs').
  exists h', s'. split; [exact E|split; [exact Hd'|]]. eapply strm_false; eauto.
Qed.
Lemma builds_error err e e' :
  Builds (fun _ => ([], Some err)) (fun h s => Done h (fallible_new (inr err))) e e'.
Proof. apply (builds_pure (fun s => fallible_new (inr err))). intros. apply strm_failed. Qed.
Lemma builds_then f g (bf : heap -> strm -> out strm) (bg : heap -> strm -> out strm) e1 e2 e3 :
  Keeps f e1 e2 -> Builds f bf e1 e2 -> Builds g bg e2 e3 ->
  Builds (fun x => g (f x)) (fun h s => obind (bf h s) bg) e1 e3.
Proof.
  intros Hk Hf Hg Q t s evs h Hs Hgood hf Hd.
  destruct (Hf Q t s evs h Hs Hgood hf Hd) as (h1 & s1 & E1 & Hd1 & Hs1).
  destruct (Hg _ _ _ _ _ Hs1) with (hf := hf) as (h2 & s2 & E2 & Hd2 & Hs2); auto.
  { rewrite <- surjective_pairing. now apply Hk. }
  exists h2, s2. split; [|split; [exact Hd2|]].
  - rewrite E1. exact E2.
  - rewrite <- surjective_pairing in Hs2. exact Hs2.
Qed.

Lemma builds_remove e : Builds d_remove (fun h s => Done h (SRemove s)) e false.
Proof. apply builds_pure. intros. eapply strm_remove; eauto. Qed.
Lemma content_no_noop c : ContentOk c -> NoNoop (fst (d_content c)).
Proof.
  unfold ContentOk, Good. destruct (snd (d_content c)).
  - intros [st H]. eapply nest_no_noop; eauto.
  - intros H. eapply nest_no_noop; eauto.
Qed.
Lemma builds_prepend c e : NoNoop (fst (d_content c)) ->
  Builds (fun x => tapp (d_content c) x) (fun h s => Done h (prepend_new s (into_stream c))) e false.
Proof.
  intros Hc. apply (builds_pure (fun s => prepend_new s (into_stream c))). intros.
  eapply strm_prepend; eauto.
Qed.
Lemma builds_append c e : NoNoop (fst (d_content c)) ->
  Builds (fun x => tapp x (d_content c)) (fun h s => Done h (append_new s (into_stream c))) e false.
Proof.
  intros Hc. apply (builds_pure (fun s => append_new s (into_stream c))). intros.
  eapply strm_append; eauto.
Qed.
Lemma builds_replace c e : NoNoop (fst (d_content c)) ->
  Builds (fun x => tapp (d_content c) (d_remove x))
    (fun h s => Done h (replace_new s (into_stream c))) e false.
Proof.
  intros Hc. apply (builds_pure (fun s => replace_new s (into_stream c))). intros.
  eapply strm_replace; eauto.
Qed.
Lemma builds_as_template f e : FunctionOk f ->
  Builds (d_as_template f) (fun h s => Done h (STemplateApply (Some (TACollect s f)))) e false.
Proof.
  intros Hf. apply (builds_pure (fun s => STemplateApply (Some (TACollect s f)))).
  intros Q t s evs h Hs Hg. eapply strm_as_template; eauto. intros evs' -> E.
  apply good_false in Hg. eapply nest_no_noop. apply (Hf evs evs'); auto.
Qed.
Lemma builds_repeat bs e :
  (forall p, In p bs -> exists e', Builds (d_pipe p) (build p) e e') ->
  Builds (d_repeat (map (fun p x => d_pipe p x) bs))
    (fun h s => Done h (SRepeat (Some (RCollect s bs)))) e false.
Proof.
  intros Hb. apply (builds_pure (fun s => SRepeat (Some (RCollect s bs)))). intros.
  eapply strm_repeat; eauto.
Qed.
Lemma builds_fallible g (bld : heap -> strm -> out strm) e e' :
  Builds g bld e e' ->
  Builds g (fun h s => obind (bld h s) (fun h s => Done h (fallible_new (inl s)))) e e'.
Proof.
  intros Hb Q t s evs h Hs Hg hf Hd. destruct (Hb Q t s evs h Hs Hg hf Hd) as (h' & s' & E & Hd' & Hs').
  exists h', (fallible_new (inl s')). rewrite E. split; [reflexivity|split; [exact Hd'|]].
  now apply strm_fallible.
Qed.
Lemma builds_attr c : Builds (d_attr c) (fun h s => Done h (SAttr (Some (AStart s c)))) true true.
Proof. apply (builds_pure (fun s => SAttr (Some (AStart s c)))). intros. now apply strm_attr. Qed.
Lemma builds_named name (c : ident -> option attr_cmd) (c' : ident -> attr_cmd) :
  (forall i, c i = Some (c' i)) ->
  Builds (d_named name c') (fun h s => attr_new h s name c) true true.
Proof.
  intros Hc. destruct name as [name|err]; simpl.
  - intros Q t s evs h Hs Hg hf Hd. exists h, (fallible_new (inl (SAttr (Some (AStart s (c' name)))))).
    rewrite Hc. split; [reflexivity|split; [exact Hd|]]. apply strm_fallible. now apply strm_attr.
  - apply (builds_error (SEIdentifier err)).
Qed.

Lemma builds_select m b g direct e :
  (forall k, Keeps (g k) true false /\ exists e', Builds (g k) (build (b k)) true e') ->
  Builds (fun x => d_select (length (fst x)) m g direct 0 0 (fst x) (snd x))
    (fun h s => let '(h, s) := select_new h s m b direct in Done h s) e false.
Proof.
  intros Hb Q t s evs h Hs Hg hf Hd. unfold select_new. cbv zeta beta.
  pose proof (fresh_loc_none (hf ∪ h)) as Hfresh.
  apply lookup_union_None in Hfresh as [Hfl Hl]. set (l := fresh_loc (hf ∪ h)) in *.
  rewrite insert_union_r by auto. eexists _, _. split; [reflexivity|].
  split; [apply map_disjoint_insert_r; auto|].
  apply good_false, good_fits in Hg. destruct Hg as (st' & H1 & H2). cbn [fst snd] in *.
  apply (strm_select m b g direct l e Q t) with (st := []) (st' := st'); auto.
  intros k. destruct (Hb k) as [Hk He]. split; [eapply keeps_strict; eauto|exact He].
Qed.
Lemma builds_select_once m p g direct e e' :
  Keeps g true false -> Builds g (build p) true e' ->
  Builds (fun x => d_select_once m g direct 0 (fst x) (snd x))
    (fun h s => let '(h, s) := select_once_new h s m p direct in Done h s) e false.
Proof.
  intros Hk Hb Q t s evs h Hs Hg hf Hd. unfold select_once_new. cbv zeta beta.
  pose proof (fresh_loc_none (hf ∪ h)) as Hfresh.
  apply lookup_union_None in Hfresh as [Hfl Hl]. set (l := fresh_loc (hf ∪ h)) in *.
  rewrite insert_union_r by auto. eexists _, _. split; [reflexivity|].
  split; [apply map_disjoint_insert_r; auto|].
  apply good_false, good_fits in Hg. destruct Hg as (st' & H1 & H2). cbn [fst snd] in *.
  apply (strm_select_once m p g direct l e Q t e') with (st := []) (st' := st'); auto.
  eapply keeps_strict; eauto.
Qed.
Lemma builds_contents_strict g cb e' :
  Strict g false -> Builds g (build_content cb) false e' ->
  Builds (d_contents g) (fun h s => Done h (select_content_new s cb)) true true.
Proof.
  intros Hk Hb. apply (builds_pure (fun s => select_content_new s cb)). intros.
  eapply strm_contents; eauto.
Qed.
Lemma builds_contents g cb e' :
  Keeps g false false -> Builds g (build_content cb) false e' ->
  Builds (d_contents g) (fun h s => Done h (select_content_new s cb)) true true.
Proof.
  intros Hk Hb. apply (builds_pure (fun s => select_content_new s cb)). intros.
  eapply strm_contents; eauto. eapply keeps_strict; eauto.
Qed.

(** [RepeatOrElse] without items *)
Lemma builds_fallback g contents p e e' :
  Builds g (build p) e e' ->
  Builds g (fun h s => Done h (SRepeatOrElse (Some (ROEStart contents s [] p)))) e false.
Proof.
  intros Hb Q t s evs h Hs Hg hf Hd. eexists _, _. split; [reflexivity|split; [exact Hd|]].
  constructor; [discriminate|]. intros hf' Hd2.
  destruct (Hb Q t s evs h Hs Hg hf' Hd2) as (h' & s' & E & Hd' & Hs').
  exists (SRepeatOrElse (Some (ROEFallback s'))), h', (inl (Some Noop)).
  split; [|split; [exact Hd'|]].
  - apply ne_intro. exists 0. intros m _. cbn [ne_body]. rewrite E. reflexivity.
  - apply After_noop. apply strm_fallback. eapply strm_false; eauto.
Qed.
Lemma builds_roe g (C : strm -> strm) contents b0 bs p e e' :
  (forall s, (if (contents : bool) then select_content_new s (CBRepeat (b0 :: bs))
              else SRepeat (Some (RCollect s (b0 :: bs)))) = C s) ->
  Builds g (fun h s => Done h (C s)) e e' ->
  Builds g (fun h s => Done h (SRepeatOrElse (Some (ROEStart contents s (b0 :: bs) p)))) e false.
Proof.
  intros HC Hb Q t s evs h Hs Hg hf Hd. eexists _, _. split; [reflexivity|split; [exact Hd|]].
  destruct (Hb Q t s evs h Hs Hg hf Hd) as (h' & s' & E & Hd' & Hs').
  injection E as E1 <-. assert (h' = h) as ->.
  { apply map_union_cancel_l with (m3 := hf); auto. }
  eapply strm_noop; [|apply strm_roe_repeat; eapply strm_false; exact Hs'].
  intros H. rewrite <- HC. ne_now.
Qed.

Lemma build_op_build : forall p h s,
  (fix build (p : pipeline) (h : heap) (s : strm) {struct p} : out strm :=
    match p with
    | [] => Done h s
    | o :: p => obind (build_op o h s) (fun h s => build p h s)
    end) p h s = build p h s.
Proof. reflexivity. Qed.

Lemma builds_pipe_of (p : pipeline) :
  (forall o, In o p -> forall e e', typed_op e o e' -> Well o -> Builds (d_op o) (build_op o) e e') ->
  forall e e', typed e p e' -> WellP p -> Builds (d_pipe p) (build p) e e'.
Proof.
  induction p as [|o p IH]; intros Ho e e' Ht Hw; inversion Ht; subst.
  - apply builds_id.
  - apply wellp_cons in Hw as [Hw1 Hw2].
    apply (builds_then (d_op o) (d_pipe p) (build_op o) (build p) e e2 e').
    + now apply keeps_op.
    + apply Ho; simpl; auto.
    + apply IH; auto. intros o' Ho'. apply Ho. now right.
Qed.

Lemma builds_op : forall o e e', typed_op e o e' -> Well o -> Builds (d_op o) (build_op o) e e'.
Proof.
  apply (op_sub_ind (fun o => forall e e', typed_op e o e' -> Well o -> Builds (d_op o) (build_op o) e e')).
  intros o IH e e' Ht Hw.
  assert (forall p e e', Sub o p -> typed e p e' -> Builds (d_pipe p) (build p) e e') as Hp.
  { intros p e1 e2 Hs Hp. eapply builds_pipe_of; eauto. eapply well_sub; eauto. }
  assert (forall p e e', Sub o p -> typed e p e' -> Keeps (d_pipe p) e e') as Hk.
  { intros p e1 e2 Hs Hk. eapply keeps_pipe; eauto. eapply well_sub; eauto. }
  clear IH. pose proof (well_args _ Hw) as Hargs.
  assert (forall bs e, (forall p, In p bs -> Sub o p) ->
    Forall (fun p => exists e', typed e p e') bs ->
    Builds (d_repeat (map (fun p x => d_pipe p x) bs))
      (fun h s => Done h (SRepeat (Some (RCollect s bs)))) e false /\
    Keeps (d_repeat (map (fun p x => d_pipe p x) bs)) e false) as Hrep.
  { intros bs e0 Hs Hf. rewrite Forall_forall in Hf. split.
    - apply builds_repeat. intros p Hin. destruct (Hf p) as [e1 Hp1]; [now apply elem_of_list_In|].
      exists e1. apply Hp; auto.
    - apply keeps_repeat. intros g Hg. apply in_map_iff in Hg as (p & <- & Hin).
      destruct (Hf p) as [e1 Hp1]; [now apply elem_of_list_In|].
      eapply keeps_weaken. eapply Hk; eauto. }
  assert (forall m b direct e, (forall k, Sub o (b k)) -> (forall k, exists e', typed true (b k) e') ->
    Builds (fun x => d_select (length (fst x)) m (fun k => d_pipe (b k)) direct 0 0 (fst x) (snd x))
      (fun h s => let '(h, s) := select_new h s m b direct in Done h s) e false) as Hsel.
  { intros m b direct e0 Hs Hty. apply builds_select. intros k. destruct (Hty k) as [e1 He1]. split.
    - eapply keeps_weaken. eapply Hk; eauto.
    - exists e1. apply Hp; auto. }
  assert (forall m p direct e e1, Sub o p -> typed true p e1 ->
    Builds (fun x => d_select_once m (d_pipe p) direct 0 (fst x) (snd x))
      (fun h s => let '(h, s) := select_once_new h s m p direct in Done h s) e false) as Hselo.
  { intros m p direct e0 e1 Hs Hty. eapply builds_select_once.
    - eapply keeps_weaken. eapply Hk; eauto.
    - apply Hp; eauto. }
  inversion Ht; subst;
    try (apply (builds_named name _ _); intros i; reflexivity);
    try (apply builds_error).
  - change (Builds (d_pipe p) (build p) e e'). apply Hp; simpl; auto.
  - apply (builds_weaken _ _ e e), builds_id.
  - apply builds_id.
  - change (Builds (d_pipe p) (fun h s => obind (build p h s) (fun h s => Done h (SApplyEither first s)))
              e (e'0 && other)).
    intros Q t s evs h Hs Hg hf Hd.
    destruct (Hp p e e'0 eq_refl H Q t s evs h Hs Hg hf Hd) as (h' & s' & E & Hd' & Hs').
    rewrite E. exists h', (SApplyEither first s'). split; [reflexivity|split; [exact Hd'|]].
    apply strm_either. destruct other.
    + now rewrite andb_true_r.
    + rewrite andb_false_r. eapply strm_false; eauto.
  - now apply builds_as_template.
  - destruct sel as [m|err]; [|apply builds_error].
    apply (builds_fallible _ (fun h s => let '(h, s) := select_new h s m b direct in Done h s)).
    apply Hsel; auto. simpl. eauto.
  - destruct sel as [m|err]; [|apply builds_error].
    apply (builds_fallible _ (fun h s => let '(h, s) := select_once_new h s m p direct in Done h s)).
    eapply Hselo; eauto. reflexivity.
  - apply builds_remove.
  - now apply builds_prepend, content_no_noop.
  - now apply builds_append, content_no_noop.
  - now apply builds_replace, content_no_noop.
  - apply (Hrep bs); auto.
  - destruct bs as [|b0 bs].
    + apply (builds_fallback (d_pipe p) false p e e'0). apply Hp; simpl; auto.
    + eapply (builds_roe (d_repeat (map (fun p x => d_pipe p x) (b0 :: bs)))); [reflexivity|].
      apply Hrep; simpl; auto.
  - apply (builds_contents (d_pipe p) (CBUser p) e'0).
    + eapply keeps_weaken. apply Hk; simpl; eauto.
    + apply Hp; simpl; auto.
  - destruct sel as [m|err]; [|apply builds_error].
    apply (builds_fallible (d_contents (fun x => d_select (length (fst x)) m (fun k => d_pipe (b k))
             direct 0 0 (fst x) (snd x))) (fun h s => Done h (select_content_new s (CBSelect direct m b)))).
    apply (builds_contents _ (CBSelect direct m b) false).
    + apply keeps_select. intros k. destruct (H k) as [e1 He1]. eapply keeps_weaken.
      apply Hk; simpl; eauto.
    + apply Hsel; auto. simpl. eauto.
  - destruct sel as [m|err]; [|apply builds_error].
    apply (builds_fallible (d_contents (fun x => d_select_once m (d_pipe p) direct 0 (fst x) (snd x)))
             (fun h s => Done h (select_content_new s (CBSelectOnce direct m p)))).
    apply (builds_contents _ (CBSelectOnce direct m p) false).
    + apply keeps_select_once. eapply keeps_weaken. apply Hk; simpl; eauto.
    + eapply Hselo; eauto. reflexivity.
  - apply (builds_contents d_remove CBRemove false); [apply keeps_remove|apply builds_remove].
  - apply (builds_contents (fun x => tapp (d_content c) x) (CBPrepend (into_stream c)) false).
    + now apply keeps_prepend.
    + now apply builds_prepend, content_no_noop.
  - apply (builds_contents (fun x => tapp x (d_content c)) (CBAppend (into_stream c)) false).
    + now apply keeps_append.
    + now apply builds_append, content_no_noop.
  - apply (builds_contents (fun x => tapp (d_content c) (d_remove x)) (CBReplace (into_stream c)) false).
    + now apply keeps_replace.
    + now apply builds_replace, content_no_noop.
  - apply (builds_contents (d_repeat (map (fun p x => d_pipe p x) bs)) (CBRepeat bs) false).
    + apply (Hrep bs); auto.
    + apply (Hrep bs); auto.
  - destruct bs as [|b0 bs].
    + apply (builds_fallback (d_pipe p) true p true e'0). apply Hp; simpl; auto.
    + eapply (builds_roe (d_contents (d_repeat (map (fun p x => d_pipe p x) (b0 :: bs))))); [reflexivity|].
      apply (builds_contents (d_repeat (map (fun p x => d_pipe p x) (b0 :: bs))) (CBRepeat (b0 :: bs)) false).
      * apply (Hrep (b0 :: bs)); simpl; auto.
      * apply (Hrep (b0 :: bs)); simpl; auto.
  - apply builds_attr.
Qed.

Lemma builds_pipe p e e' : typed e p e' -> WellP p -> Builds (d_pipe p) (build p) e e'.
Proof. apply builds_pipe_of. intros o _. apply builds_op. Qed.

(** ** Transformations *)

Definition outcome (x : trace) : list event + stream_error :=
  match snd x with None => inl (fst x) | Some err => inr err end.

Lemma transform_builds evs p g e e' : Good e (evs, None) -> Builds g (build p) e e' ->
  exists h, Ev (fun n => transform n evs p) h (outcome (g (evs, None))).
Proof.
  intros Hg Hb.
  assert (Strm e (fun _ => True) None (STemplate evs 0) evs ∅) as Hs.
  { apply strm_template0; [now apply post_intro|]. now apply (good_no_noop e (evs, None)). }
  destruct (Hb _ _ _ _ _ Hs Hg ∅) as (h' & s' & E & Hd & Hs').
  { apply map_disjoint_empty_l. }
  destruct (strm_co _ _ _ _ _ _ Hs' ∅ [] ltac:(apply map_disjoint_empty_l))
    as (h2 & [n Hn] & _ & _).
  exists (∅ ∪ h2), n. intros m Hm. unfold transform. rewrite map_empty_union in E. rewrite E.
  cbn [obind]. rewrite Hn by auto. unfold outcome.
  destruct (snd (g (evs, None))); reflexivity.
Qed.
Lemma transform_trace evs p e e' : Good e (evs, None) -> typed e p e' -> WellP p ->
  exists h, Ev (fun n => transform n evs p) h (outcome (d_pipe p (evs, None))).
Proof.
  intros Hg Ht Hw. apply (transform_builds evs p (d_pipe p) e e' Hg). now apply builds_pipe.
Qed.
