(** Well nested traces, and splitting elements off them. *)
From Coq Require Import String ZArith.
From stdpp Require Import gmap.
From Verif Require Import Text Event Input Parse Selector Machine.
From Verif Require Import SpecText SpecAttr TextProofs AttrProofs AttrProofs2 Trace.
Local Open Scope nat_scope.

(** ** Names *)

Lemma ident_eqb_sym a b : ident_eqb a b = true -> ident_eqb b a = true.
Proof.
  unfold ident_eqb. rewrite !identifier_eq_spec. intros (H1 & H2 & H3). repeat split; auto.
  now apply same_name_sym.
Qed.
Lemma ident_eqb_trans a b c : ident_eqb a b = true -> ident_eqb b c = true -> ident_eqb a c = true.
Proof.
  unfold ident_eqb. rewrite !identifier_eq_spec. intros (H1 & H2 & H3) (H4 & H5 & H6).
  repeat split; auto. eapply same_name_trans; eauto.
Qed.
Lemma ident_eqb_replace a b c : ident_eqb a b = true -> ident_eqb a c = ident_eqb b c.
Proof.
  intros H. destruct (ident_eqb a c) eqn:E1, (ident_eqb b c) eqn:E2; auto.
  - rewrite <- E2. symmetry. eapply ident_eqb_trans; [apply ident_eqb_sym|]; eauto.
  - rewrite <- E1. eapply ident_eqb_trans; eauto.
Qed.

(** A start tag with valid names *)
Definition name_ok (s : str) : bool := match validate s with inl _ => true | inr _ => false end.
Definition valid_start (t : ident) (a : attributes) : bool :=
  name_ok (id_str t) && forallb (fun x => name_ok (id_str (a_name x))) a.

Lemma name_ok_spec s : name_ok s = true <-> ValidName s.
Proof.
  rewrite <- validate_iff. unfold name_ok. destruct (validate s) as [v|e].
  - split; eauto.
  - split; [discriminate|]. intros [t Ht]. discriminate.
Qed.
Lemma valid_start_spec t a : valid_start t a = true <-> ValidName (id_str t) /\ ValidAttrs a.
Proof.
  unfold valid_start, ValidAttrs. rewrite andb_true_iff, name_ok_spec, forallb_forall.
  split; intros [H1 H2]; split; auto; intros x Hx; apply name_ok_spec; auto.
Qed.
Lemma valid_start_refl t a : valid_start t a = true -> ident_eqb t t = true.
Proof.
  rewrite valid_start_spec. intros [H _]. apply identifier_eq_spec.
  repeat split; [now apply valid_ascii|now apply valid_ascii|apply same_name_refl].
Qed.
Lemma valid_start_attr t a c : ValidName (id_str (cmd_name c)) -> valid_start t a = true ->
  valid_start t (apply_attr c a) = true.
Proof.
  intros Hc. rewrite !valid_start_spec. intros [H1 H2]. split; auto. now apply apply_attr_valid.
Qed.

(** ** Nesting *)

(** The open elements after one event, innermost first; [None] if the event does not fit. *)
Definition nest1 (st : list ident) (ev : event) : option (list ident) :=
  match ev with
  | Noop => None
  | OpeningTag t a => if valid_start t a then Some (t :: st) else None
  | SelfClosedTag t a | VoidTag t a => if valid_start t a then Some st else None
  | ClosingTag t =>
      match st with
      | t0 :: st => if ident_eqb t t0 then Some st else None
      | [] => None
      end
  | _ => Some st
  end.
Fixpoint nest (st : list ident) (evs : list event) : option (list ident) :=
  match evs with
  | [] => Some st
  | ev :: evs => match nest1 st ev with Some st => nest st evs | None => None end
  end.

Lemma nest_app st a b :
  nest st (a ++ b) = match nest st a with Some st => nest st b | None => None end.
Proof.
  revert st. induction a as [|ev a IH]; intros st; simpl; auto.
  destruct (nest1 st ev); auto.
Qed.
Lemma nest1_frame st ev st' r : nest1 st ev = Some st' -> nest1 (st ++ r) ev = Some (st' ++ r).
Proof.
  destruct ev; simpl; try congruence; try (intros [= <-]; reflexivity);
    try (destruct (valid_start tag attrs); [intros [= <-]; reflexivity|congruence]).
  destruct st as [|t0 st]; [congruence|]. simpl.
  destruct (ident_eqb tag t0); [intros [= <-]; reflexivity|congruence].
Qed.
Lemma nest_frame st evs st' r : nest st evs = Some st' -> nest (st ++ r) evs = Some (st' ++ r).
Proof.
  revert st. induction evs as [|ev evs IH]; intros st; simpl; [congruence|].
  destruct (nest1 st ev) as [st1|] eqn:E; [|congruence].
  rewrite (nest1_frame _ _ _ r E). apply IH.
Qed.
Lemma nest_no_noop st evs st' : nest st evs = Some st' -> Forall (fun ev => ev <> Noop) evs.
Proof.
  revert st. induction evs as [|ev evs IH]; intros st; simpl; [constructor|].
  destruct (nest1 st ev) as [st1|] eqn:E; [|congruence]. constructor; eauto.
  intros ->. discriminate.
Qed.
Lemma nest1_adjust st ev st' : nest1 st ev = Some st' -> adjust (length st) ev = inl (length st').
Proof.
  destruct ev; simpl; try congruence; try (intros [= <-]; reflexivity);
    try (destruct (valid_start tag attrs); [intros [= <-]; reflexivity|congruence]).
  destruct st as [|t0 st]; [congruence|]. simpl.
  destruct (ident_eqb tag t0); [intros [= <-]; reflexivity|congruence].
Qed.

(** ** Good traces *)

(** A complete element: its first event, and the others. *)
Definition Whole (evs : list event) : Prop :=
  match evs with
  | [VoidTag t a] | [SelfClosedTag t a] => valid_start t a = true
  | OpeningTag t a :: rest =>
      valid_start t a = true /\
      exists kids c, rest = kids ++ [ClosingTag c] /\ ident_eqb c t = true /\ nest [] kids = Some []
  | _ => False
  end.
(** Part of an element: less than all of it. *)
Definition Begun (evs : list event) : Prop :=
  match evs with
  | [] => True
  | OpeningTag t a :: rest => valid_start t a = true /\ exists st, nest [] rest = Some st
  | _ => False
  end.

(** [elem]: the stream is an element stream. *)
Definition Good (elem : bool) (x : trace) : Prop :=
  match elem, snd x with
  | false, None => nest [] (fst x) = Some []
  | false, Some _ => exists st, nest [] (fst x) = Some st
  | true, None => Whole (fst x)
  | true, Some _ => Begun (fst x)
  end.

Lemma whole_nest evs : Whole evs -> nest [] evs = Some [].
Proof.
  destruct evs as [|[] rest]; try contradiction; simpl.
  - intros (Hr & kids & c & -> & Hc & Hk). rewrite Hr.
    rewrite nest_app. pose proof (nest_frame _ _ _ [tag] Hk) as Hf. simpl in Hf. rewrite Hf.
    simpl. now rewrite Hc.
  - destruct rest; [|contradiction]. intros ->. reflexivity.
  - destruct rest; [|contradiction]. intros ->. reflexivity.
Qed.
Lemma begun_nest evs : Begun evs -> exists st, nest [] evs = Some st.
Proof.
  destruct evs as [|[] rest]; try contradiction; simpl; [eauto|].
  intros (Hr & st & Hst). rewrite Hr. pose proof (nest_frame _ _ _ [tag] Hst) as Hf.
  simpl in Hf. eauto.
Qed.
Lemma good_false elem x : Good elem x -> Good false x.
Proof.
  destruct elem; [|auto]. destruct x as [evs [err|]]; simpl.
  - apply begun_nest.
  - apply whole_nest.
Qed.
Lemma good_no_noop elem x : Good elem x -> Forall (fun ev => ev <> Noop) (fst x).
Proof.
  intros H. apply good_false in H. destruct x as [evs [err|]]; simpl in *.
  - destruct H as [st H]. eapply nest_no_noop; eauto.
  - eapply nest_no_noop; eauto.
Qed.

Lemma tapp_nil_l x : tapp ([], None) x = x.
Proof. destruct x. reflexivity. Qed.
Lemma tapp_assoc x y z : tapp (tapp x y) z = tapp x (tapp y z).
Proof.
  destruct x as [x [e|]]; [reflexivity|]. destruct y as [y [e|]]; [reflexivity|].
  unfold tapp. simpl. now rewrite <- app_assoc.
Qed.

(** ** The end of an element *)

Fixpoint count (tag : ident) (st : list ident) : nat :=
  match st with
  | [] => 0
  | t :: st => (if ident_eqb t tag then 1 else 0) + count tag st
  end.

Lemma until_nest tag st : forall evs inner st',
  nest (inner ++ tag :: st) evs = Some st' ->
  match d_until tag (count tag inner) evs with
  | Some (elem, rest) =>
      evs = elem ++ rest /\
      exists kids c, elem = kids ++ [ClosingTag c] /\ ident_eqb c tag = true /\
                     nest inner kids = Some [] /\ nest st rest = Some st'
  | None => exists inner', nest inner evs = Some inner' /\ st' = inner' ++ tag :: st
  end.
Proof.
  induction evs as [|ev evs IH]; intros inner st' H; simpl in H |- *.
  { injection H as <-. exists inner. auto. }
  destruct (nest1 (inner ++ tag :: st) ev) as [st1|] eqn:E1; [|discriminate].
  (* the event changes the inner stack only *)
  assert (forall inner', st1 = inner' ++ tag :: st -> nest1 inner ev = Some inner' ->
    match match d_until tag (count tag inner') evs with
          | Some (elem, rest) => Some (ev :: elem, rest)
          | None => None
          end with
    | Some (elem, rest) =>
      ev :: evs = elem ++ rest /\
      exists kids c, elem = kids ++ [ClosingTag c] /\ ident_eqb c tag = true /\
                     nest inner kids = Some [] /\ nest st rest = Some st'
    | None => exists inner', match nest1 inner ev with Some s => nest s evs | None => None end
                             = Some inner' /\ st' = inner' ++ tag :: st
    end) as Hgo.
  { intros inner' -> Ei. specialize (IH inner' st' H).
    destruct (d_until tag (count tag inner') evs) as [[elem rest]|].
    - destruct IH as (-> & kids & c & -> & Hc & Hk & Hr). split; [reflexivity|].
      exists (ev :: kids), c. repeat split; auto. simpl. now rewrite Ei.
    - destruct IH as (i2 & H2 & ->). exists i2. now rewrite Ei. }
  unfold is_opening_tag_for, is_closing_tag_for.
  destruct ev; simpl in E1 |- *; try discriminate;
    try (injection E1 as <-; apply Hgo; reflexivity).
  - destruct (valid_start tag0 attrs) eqn:Er; [|discriminate]. injection E1 as <-.
    specialize (Hgo (tag0 :: inner) eq_refl). simpl in Hgo. rewrite Er in Hgo.
    specialize (Hgo eq_refl). destruct (ident_eqb tag0 tag) eqn:Et; exact Hgo.
  - destruct inner as [|t0 inner]; simpl in E1.
    + destruct (ident_eqb tag0 tag) eqn:Et; [|discriminate]. injection E1 as <-. simpl.
      split; [reflexivity|]. exists [], tag0. repeat split; auto.
    + destruct (ident_eqb tag0 t0) eqn:Et; [|discriminate]. injection E1 as <-.
      specialize (Hgo inner eq_refl). simpl in Hgo. rewrite Et in Hgo. specialize (Hgo eq_refl).
      simpl. rewrite <- (ident_eqb_replace _ _ tag Et). destruct (ident_eqb tag0 tag); exact Hgo.
  - destruct (valid_start tag0 attrs) eqn:Er; [|discriminate]. injection E1 as <-.
    specialize (Hgo inner eq_refl). simpl in Hgo. rewrite Er in Hgo. exact (Hgo eq_refl).
  - destruct (valid_start tag0 attrs) eqn:Er; [|discriminate]. injection E1 as <-.
    specialize (Hgo inner eq_refl). simpl in Hgo. rewrite Er in Hgo. exact (Hgo eq_refl).
Qed.

(** Splitting off the element that starts with a given event. *)
Lemma single_good st ev rest st' t :
  nest st (ev :: rest) = Some st' -> (t = None -> st' = []) ->
  let '(elem, rest') := d_single ev rest t in
  Good true elem /\
  ((fst elem ++ rest' = ev :: rest /\ snd elem = None /\ nest st rest' = Some st') \/
   snd elem <> None).
Proof.
  intros H Ht. simpl in H. destruct (nest1 st ev) as [st1|] eqn:E1; [|discriminate].
  destruct ev; simpl in E1 |- *; try (split; [exact I|right; discriminate]).
  - destruct (valid_start tag attrs) eqn:Er; [|discriminate]. injection E1 as <-.
    pose proof (until_nest tag st rest [] st' H) as Hu. simpl in Hu.
    destruct (d_until tag 0 rest) as [[elem rest']|]; simpl.
    + destruct Hu as (-> & kids & c & -> & Hc & Hk & Hr). split.
      * unfold Good. simpl. split; auto. exists kids, c. auto.
      * left. split; [|auto]. reflexivity.
    + destruct Hu as (inner & Hi & ->). destruct t as [err|].
      * unfold Good. simpl. split; [|right; discriminate]. eauto.
      * destruct inner; discriminate Ht; reflexivity.
  - destruct (valid_start tag attrs) eqn:Er; [|discriminate]. injection E1 as <-.
    split; [reflexivity|]. left. auto.
  - destruct (valid_start tag attrs) eqn:Er; [|discriminate]. injection E1 as <-.
    split; [reflexivity|]. left. auto.
Qed.
