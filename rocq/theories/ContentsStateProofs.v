(** Proofs for C85. *)
From Coq Require Import List Lia.
From stdpp Require Import gmap.
From Verif Require Import Text Event Input Selector Machine MachineState.
From Verif Require Import SpecText SpecAttr SpecParse SpecTree SpecTransform SpecOps SpecState SpecRepeatState SpecContentState.
From Verif Require Import TreeProofs TextProofs TextProofs2 ReachProofs SelectionProofs StateProofs2 StateProofs4 MoveProofs RepeatStateProofs ContentStateProofs.
Local Open Scope nat_scope.

(** [Bal level evs]: in [evs], which starts [level] elements deep, every element that is
    open is closed, and no other. *)
Fixpoint Bal (level : nat) (evs : list event) : Prop :=
  match evs with
  | [] => level = 0
  | ev :: evs => ev <> Noop /\ (level = 0 -> forall t, ev <> ClosingTag t) /\
      exists level', adjust level ev = inl level' /\ Bal level' evs
  end.
Lemma bal_leaf ev evs level : is_leaf ev -> Bal level evs -> Bal level (ev :: evs).
Proof.
  intros Hl Hb. cbn. split; [by intros ->|]. split; [intros _ t ->; done|]. exists level. split; [by apply adjust_leaf|done].
Qed.
Lemma bal_forest F : Proper F -> forall level evs, Bal level evs -> Bal level (events F ++ evs).
Proof.
  assert (forall x, ProperTree x -> forall level evs, Bal level evs -> Bal level (tree_events x ++ evs)) as Hx.
  { apply (tree_rect' (fun x => ProperTree x -> forall level evs, Bal level evs -> Bal level (tree_events x ++ evs))).
    - intros ev HP level evs Hb. inversion HP; subst. by apply bal_leaf.
    - intros t a kids c IH HP level evs Hb. inversion HP as [|? ? ? ? _ _ _ Hk]; subst.
      cbn. split; [done|]. split; [done|]. exists (S level). split; [done|]. rewrite <- app_assoc.
      assert (Bal (S level) ([ClosingTag c] ++ evs)) as Hb'.
      { cbn. split; [done|]. split; [done|]. eauto. }
      clear HP. induction kids as [|y K IHK]; [done|]. cbn. rewrite <- app_assoc. apply IH; [by left|by apply Hk; left|].
      apply IHK; intros z Hz; [apply IH|apply Hk]; by right. }
  intros HF level evs Hb. induction F as [|x F IHF]; [done|]. cbn. rewrite <- app_assoc. apply Hx; [by apply HF; left|].
  apply IHF. intros y Hy. apply HF. by right.
Qed.

Section Contents.
Context {W : Type}.
Implicit Types h : wheap W. Implicit Types s X : wstrm W.

(** A stream outside the heap that gives [evs] first. *)
Fixpoint Feeds X (evs : list event) : Prop :=
  match evs with
  | [] => True
  | ev :: evs => ev <> Noop /\ exists X', (forall h, NeTo h X h (X', inl (Some ev))) /\ Feeds X' evs
  end.
Lemma feeds_template evs (i : nat) : ~ In Noop evs -> Feeds (WSExpand (Some (WXEmitStream (WSTemplate evs i)))) (drop i evs).
Proof.
  intros Hn. remember (length evs - i) as d eqn:Hd. revert i Hd. induction d as [|d IH]; intros i Hd.
  - by rewrite drop_ge by lia.
  - destruct (lookup_lt_is_Some_2 evs i) as [ev Ei0]; [lia|]. pose proof Ei0 as Ei. rewrite <- nth_error_is in Ei.
    rewrite (drop_S _ _ _ Ei0). cbn. split.
    + intros ->. apply Hn. by eapply nth_error_In.
    + eexists. split; [|apply IH; lia]. intros h. exists 2. cbn. by rewrite Ei.
Qed.

Definition cell X (pk : option event) : wcell W := WCell (WSPeek X pk).
Lemma peek_ne g w l X X' ev : ev <> Noop -> (forall h, NeTo h X h (X', inl (Some ev))) ->
  exists n, wwith_cell (<[l:=cell X None]> g, w) l (wpeek (wrun n)) =
            WDone (<[l:=cell X' (Some ev)]> g, w) (WSShared l, inl (Some ev)) /\
    wne (wrun n) (<[l:=cell X None]> g, w) (WSShared l) =
            WDone (<[l:=cell X' None]> g, w) (WSShared l, inl (Some ev)).
Proof.
  intros Hev HX. destruct (HX (<[l:=WBorrowed]> g, w)) as [n Hn].
  assert (forall m, n <= m -> wsk (wrun (S m)) (<[l:=WBorrowed]> g, w) X = WDone (<[l:=WBorrowed]> g, w) (X', inl (Some ev))) as Hs.
  { intros m Hm. cbn [wrun wsk]. unfold wsk_body. rewrite (ne_more n m _ _ _ _ Hm Hn). cbn. by destruct ev. }
  exists (S (S (S n))). split.
  - unfold wwith_cell. cbn [fst snd]. rewrite lookup_insert. cbn [cell]. rewrite insert_insert. unfold wpeek, won_ok.
    rewrite (Hs (S (S n))) by lia. cbn. by rewrite insert_insert.
  - assert (wne (wrun (S (S n))) (<[l:=WBorrowed]> g, w) (WSPeek X None) =
            WDone (<[l:=WBorrowed]> g, w) (WSPeek X' None, inl (Some ev))) as Hp.
    { change (won_ok (wsk (wrun (S n)) (<[l:=WBorrowed]> g, w) X) (fun s => WSPeek s None)
        (fun h s r => WDone h (WSPeek s None, inl r)) =
        WDone (<[l:=WBorrowed]> g, w) (WSPeek X' None, inl (Some ev))). rewrite (Hs n) by lia. done. }
    change (wwith_cell (<[l:=cell X None]> g, w) l (wne (wrun (S (S n)))) =
            WDone (<[l:=cell X' None]> g, w) (WSShared l, inl (Some ev))).
    unfold wwith_cell. cbn [fst snd]. rewrite lookup_insert. cbn [cell]. rewrite insert_insert. rewrite Hp. cbn [wbind fst snd].
    by rewrite insert_insert.
Qed.
Lemma peeked_ne g w l X ev : exists n,
  wne (wrun n) (<[l:=cell X (Some ev)]> g, w) (WSShared l) = WDone (<[l:=cell X None]> g, w) (WSShared l, inl (Some ev)).
Proof.
  exists 2. cbn. unfold wwith_cell. cbn [fst snd]. rewrite lookup_insert. cbn. by rewrite !insert_insert.
Qed.
Definition closes (tag : ident) (cl : event) : Prop := is_closing_tag_for cl tag = true.

Lemma contents_run tag l cl w evs : closes tag cl -> forall level X acc g, Bal level evs -> Feeds X (evs ++ [cl]) ->
  exists X', CoTo (<[l:=cell X None]> g, w) (WSCurrentContent (Some (tag, l, level))) acc
                  (<[l:=cell X' (Some cl)]> g, w) (inl (acc ++ evs)).
Proof.
  intros Hcl. induction evs as [|ev evs IH]; intros level X acc g Hb HX.
  - cbn in Hb. subst level. destruct HX as (Hn & X' & HX & _). exists X'. rewrite app_nil_r.
    destruct (peek_ne g w l _ _ _ Hn HX) as (n & H1 & _). eapply ne_none. exists (S n). cbn [wrun wne wne_body Nat.eqb negb].
    rewrite H1. cbn. unfold closes in Hcl. by rewrite Hcl.
  - destruct Hb as (Hn & Hc & level' & Ha & Hb). cbn [app Feeds] in HX. destruct HX as (_ & X' & HX & HX').
    destruct (IH level' X' (acc ++ [ev]) g Hb HX') as (X2 & H2). rewrite <- app_assoc in H2. exists X2.
    assert (strip_noops [ev] = [ev]) as Hs by by destruct ev.
    destruct (peek_ne g w l _ _ _ Hn HX) as (n & H1 & H1'). destruct (peeked_ne g w l X' ev) as (m & H3).
    apply (ne_more _ (n + m)) in H1'; [|lia]. apply (ne_more _ (n + m)) in H3; [|lia].
    eapply ne_emit; [|rewrite Hs; exact H2].
    destruct level as [|level].
    + assert (is_closing_tag_for ev tag = false) as Ec.
      { destruct ev; try done. }
      exists (S (n + m)). cbn [wrun wne wne_body Nat.eqb negb].
      assert (wwith_cell (<[l:=cell X None]> g, w) l (wpeek (wrun (n + m))) =
            WDone (<[l:=cell X' (Some ev)]> g, w) (WSShared l, inl (Some ev))) as ->.
      { revert H1. unfold wwith_cell. cbn [fst snd]. rewrite lookup_insert. cbn [cell]. rewrite insert_insert. unfold wpeek, won_ok.
        destruct (wsk (wrun n) (<[l:=WBorrowed]> g, w) X) as [| |h4 y] eqn:E; try discriminate.
        by rewrite (sk_more n (n + m) _ _ _ _ ltac:(lia) E). }
      cbn. rewrite Ec. unfold won_ok. rewrite H3. cbn. by rewrite Ha.
    + exists (S (n + m)). cbn [wrun wne wne_body Nat.eqb negb]. unfold won_ok. rewrite H1'. cbn [wbind]. by rewrite Ha.
Qed.

(** ** [SelectContent] *)

Lemma passes_content l tag : Passes (W := W) (fun s => WSSelectContent (Some (WSCContent l s tag)))
  (WSSelectContent (Some (WSCClose l tag))) (WSSelectContent None).
Proof.
  split; [intros n h s h' s' r H|intros n h s h' s' H|intros n h s h' s' e H|intros n h s h' x]; cbn [wrun wne wne_body]; unfold won_ok.
  1-3: by rewrite H.
  destruct (wne (wrun n) h s) as [| |h1 [s1 [[]|]]]; try discriminate; intros H; injection H as <- <-; eauto.
Qed.
Lemma close_run g w l tag X t acc : g !! l = Some (cell X (Some (ClosingTag t))) -> ident_eqb t tag = true ->
  CoTo (g, w) (WSSelectContent (Some (WSCClose l tag))) acc (<[l:=cell X None]> g, w) (inl (acc ++ [ClosingTag t])).
Proof.
  intros Hl Ht. eapply ne_emit with (ev := ClosingTag t) (h1 := (<[l:=cell X None]> g, w)) (s1 := WSSelectContent None).
  - destruct (peeked_ne g w l X (ClosingTag t)) as [n Hn]. rewrite insert_id in Hn by done.
    exists (S (S n)). cbn [wrun wne wne_body wsk]. unfold won_ok, wsk_body.
    change (wne_body (wrun n) ?h ?s) with (wne (wrun (S n)) h s).
    assert (wne (wrun n) (g, w) (WSShared l) = WDone (<[l:=cell X None]> g, w) (WSShared l, inl (Some (ClosingTag t)))) as Hn' by done.
    rewrite Hn'. cbn. by rewrite Ht.
  - eapply ne_none. by exists 1.
Qed.

(** An element that has an inside, seen by [SelectContent]. *)
Record Opened (evs : list event) (tag : ident) (op : event) (kids : list event) (cl : event) X : Prop :=
  { op_sk : forall h, SkTo h (WSExpand (Some (WXStart (WSTemplate evs 0)))) h (X, inl (Some op));
    op_tag : exists a, op = OpeningTag tag a;
    op_close : exists t, cl = ClosingTag t /\ ident_eqb t tag = true;
    op_feeds : Feeds X (kids ++ [cl]);
    op_bal : Bal 0 kids }.
Lemma opened x op kids cl : ProperTree x -> Inside x op kids cl ->
  exists tag X, Opened (tree_events x) tag op (events kids) cl X.
Proof.
  intros HP HI. destruct HI as [t a kids c|t a]; inversion HP; subst.
  - exists t, (WSExpand (Some (WXEmitStream (WSTemplate (tree_events (Elem t a kids c)) 1)))). split.
    + intros h. apply sk_event; [|done]. exists 4. done.
    + eauto.
    + exists c. split; [done|]. apply ident_eqb_spec; [by eapply same_name_valid|done|by apply same_name_sym].
    + change (events kids ++ [ClosingTag c]) with (drop 1 (tree_events (Elem t a kids c))). apply feeds_template.
      intros Hin. by apply (ReachProofs.tree_valid _ HP) in Hin as [_ ?].
    + rewrite <- (app_nil_r (events kids)). by apply bal_forest.
  - exists t, (WSExpand (Some (WXEmitClosingTag t))). split.
    + intros h. apply sk_event; [|done]. exists 4. done.
    + eauto.
    + exists t. split; [done|]. by apply ident_eqb_refl, valid_ascii, (ReachProofs.tree_valid _ HP (SelfClosedTag t a) (or_introl eq_refl)).
    + cbn. split; [done|]. eexists. split; [|done]. intros h. by exists 1.
    + done.
Qed.

Lemma co_after_event h s acc x res h1 s1 ev : CoTo h s acc x res -> NeTo h s h1 (s1, inl (Some ev)) -> ev <> Noop ->
  CoTo h1 s1 (acc ++ [ev]) x res.
Proof.
  intros ([|n] & H) Hn Hev; [discriminate|]. apply co_inv in H as (h2 & s2 & r2 & H1 & H2).
  apply sk_event in Hn as [m Hn]; [|by destruct ev].
  apply (sk_more _ (n + m)) in H1; [|lia]. apply (sk_more _ (n + m)) in Hn; [|lia]. rewrite H1 in Hn.
  injection Hn as -> -> ->. by exists n.
Qed.
Lemma fresh_lt (g : gmap loc (wcell W)) l c : g !! l = Some c -> (l < wfresh_loc g)%positive.
Proof.
  intros E. destruct (StateProofs.fold_locs g) as [H _]. specialize (H l). rewrite E in H. specialize (H ltac:(eauto)). unfold wfresh_loc. lia.
Qed.

Section One.
Context (evs : list event) (tag : ident) (op : event) (kids : list event) (cl : event) (X : wstrm W).
Context (HO : Opened evs tag op kids cl X).
Let l : loc := wfresh_loc (∅ : gmap loc (wcell W)).
Let h0 (w : W) : wheap W := (<[l:=cell X None]> ∅, w).
Let CC : wstrm W := WSCurrentContent (Some (tag, l, 0)).

Lemma open_ne b w h1 s1 : wbuild_content b (h0 w) CC = WDone h1 s1 ->
  NeTo (∅, w) (wselect_content_new (WSTemplate evs 0) b) h1 (WSSelectContent (Some (WSCContent l s1 tag)), inl (Some op)).
Proof.
  intros Hb. destruct (op_sk _ _ _ _ _ _ HO (∅, w)) as [n Hn]. destruct (op_tag _ _ _ _ _ _ HO) as [a ->].
  exists (S n). unfold wselect_content_new. cbn [wrun wne wne_body]. unfold won_ok. rewrite Hn. cbn [wbind fst snd].
  unfold h0, CC, l in Hb. cbv zeta. unfold cell in Hb. rewrite Hb. done.
Qed.
Lemma op_not_noop : op <> Noop.
Proof. by destruct (op_tag _ _ _ _ _ _ HO) as [a ->]. Qed.

Lemma op_stays : strip_noops [op] = [op].
Proof. by destruct (op_tag _ _ _ _ _ _ HO) as [a ->]. Qed.

(** [Inner]: what the stream of the contents gives. *)
Definition Inner_is b w h1 s1 (Inner : list event + stream_error -> W -> Prop) : Prop :=
  wbuild_content b (h0 w) CC = WDone h1 s1 /\
  (forall r1 w2, Inner r1 w2 -> exists g2, CoTo h1 s1 [] (g2, w2) r1 /\
     forall t, r1 = inl t -> exists X', g2 !! l = Some (cell X' (Some cl))) /\
  (forall y r1, CoTo h1 s1 [] y r1 -> Inner r1 (snd y)).
Lemma around_co b w h1 s1 Inner : Inner_is b w h1 s1 Inner -> forall r w',
  (exists g', CoTo (∅, w) (wselect_content_new (WSTemplate evs 0) b) [] (g', w') r) <->
  exists r1, Inner r1 w' /\ r = around [op] r1 [cl].
Proof.
  intros (Hb & Hf & Hi). pose proof (open_ne _ _ _ _ Hb) as Ho. pose proof op_stays as Hop.
  assert (forall r1 w2, Inner r1 w2 -> exists g', CoTo (∅, w) (wselect_content_new (WSTemplate evs 0) b) [] (g', w2) (around [op] r1 [cl])) as Hfw.
  { intros r1 w2 HI. destruct (Hf _ _ HI) as (g2 & Hc & Hl). apply (co_from _ _ [op]) in Hc as [n Hc].
    apply (pass_co _ _ _ _ (passes_content l tag)) in Hc. destruct r1 as [t|e]; cbn [followed around] in *.
    - destruct (Hl t eq_refl) as (X' & Hg). destruct (op_close _ _ _ _ _ _ HO) as (ct & Ec & Et).
      rewrite Ec in Hg |- *.
      eexists. eapply ne_emit; [exact Ho|].
      rewrite Hop.
      apply Hc. rewrite app_assoc. by eapply close_run.
    - exists g2. eapply ne_emit; [exact Ho|].
      rewrite Hop. exact Hc. }
  intros r w'. split; [|intros (r1 & HI & ->); by apply Hfw].
  intros (g' & Hc). pose proof (co_after_event _ _ _ _ _ _ _ _ Hc Ho op_not_noop) as H1.
  apply co_split in H1 as (n & m & H1).
  destruct (pass_fin _ _ _ (passes_content l tag) _ _ _ _ _ _ _ H1) as (h2 & r2 & H2 & _).
  apply co_from_inv in H2 as (r1 & _ & H2). pose proof (Hi _ _ H2) as HI.
  destruct (Hfw _ _ HI) as (g3 & H3). destruct (co_det _ _ _ _ _ _ _ Hc H3) as [[= -> ->] ->]. eauto.
Qed.
Lemma around_gives o b w h1 s1 Inner : (forall h s, wbuild_op o h s = WDone h (wselect_content_new s b)) ->
  Inner_is b w h1 s1 Inner -> forall r w',
  GivesIn evs (calls [o]) w r w' <-> exists r1, Inner r1 w' /\ r = around [op] r1 [cl].
Proof.
  intros Ho HI r w'. rewrite <- (around_co _ _ _ _ _ HI).
  rewrite (gives_run evs [] (fun s => wselect_content_new s b) o) by done. cbn [wbuild]. split.
  - intros (h & s & g' & [= <- <-] & H). eauto.
  - intros (g' & H). by exists (∅, w), (WSTemplate evs 0), g'.
Qed.

Lemma kids_run w : exists X', CoTo (h0 w) CC [] (<[l:=cell X' (Some cl)]> ∅, w) (inl kids).
Proof.
  destruct (op_close _ _ _ _ _ _ HO) as (ct & Ec & Et). apply (contents_run tag l cl w kids).
  - unfold closes. by rewrite Ec.
  - apply (op_bal _ _ _ _ _ _ HO).
  - apply (op_feeds _ _ _ _ _ _ HO).
Qed.

Lemma repeat_inner it w : Inner_is (WCBRepeat (plain it)) w (h0 w) (WSRepeat (Some (WRCollect CC (plain it))))
  (fun r w' => Repeats kids it 0 w r w').
Proof.
  destruct (kids_run w) as [X' Hk]. split; [done|]. split.
  - intros r1 w2 Hr. destruct (proj1 (repeats_run kids it) _ _ _ _ Hr (<[l:=cell X' (Some cl)]> ∅) (plain it) [] (from_0 it)) as (g' & H & _ & Hg).
    exists g'. split; [eapply collect_ok; [exact Hk|]; by destruct r1|]. intros t _. exists X'.
    rewrite Hg; [by rewrite lookup_insert|]. eapply fresh_lt. by rewrite lookup_insert.
  - intros y r1 H. apply co_split in H as (n & m & H). destruct (collect_inv _ _ _ _ _ _ _ _ H) as (h1 & r2 & H1 & H2).
    destruct (co_det _ _ _ _ _ _ _ H1 Hk) as [-> ->]. destruct H2 as (n' & m' & _ & H2).
    destruct (run_repeats kids it _ _ _ _ _ _ _ _ _ (from_0 it) H2) as (r0 & -> & Hr). by destruct r0.
Qed.
Lemma copies_inner it b0 w : Inner_is (WCBRepeat (Items (Some b0) (fun n => it (S n)))) w (h0 w)
  (WSRepeat (Some (WRCollect CC (Items (Some b0) (fun n => it (S n)))))) (fun r w' => Copies kids it 0 (Some b0) w r w').
Proof.
  assert (from it 1 (Items None (fun n => it (S n)))) as Hfrom by by eexists.
  destruct (kids_run w) as [X' Hk]. split; [done|]. split.
  - intros r1 w2 Hr.
    destruct (proj2 (repeats_run kids it) _ _ _ _ _ Hr (<[l:=cell X' (Some cl)]> ∅) (Items None (fun n => it (S n))) [] Hfrom) as (g' & (h2 & s2 & Eb & H3) & _ & Hg).
    exists g'. split.
    + eapply collect_ok; [exact Hk|]. eapply co_noop; [exists 1; cbn; by rewrite Eb|]. by destruct r1.
    + intros t _. exists X'. rewrite Hg; [by rewrite lookup_insert|]. eapply fresh_lt. by rewrite lookup_insert.
  - intros y r1 H. apply co_split in H as (n & m & H). destruct (collect_inv _ _ _ _ _ _ _ _ H) as (h1 & r2 & H1 & H2).
    destruct (co_det _ _ _ _ _ _ _ H1 Hk) as [-> ->]. destruct H2 as (n' & m' & _ & H2).
    assert (exists h2 s2, run_builder b0 (<[l:=cell X' (Some cl)]> ∅, w) (WSTemplate kids 0) = WDone h2 s2) as (h2 & s2 & Eb).
    { destruct H2 as (? & ? & ? & H2 & _). destruct m' as [|[|m']]; [discriminate| |].
      { apply sk_inv in H2 as (? & ? & ? & H2 & _). discriminate. }
      apply sk_inv in H2 as (? & ? & ? & H2 & _). cbn in H2.
      destruct (run_builder b0 (<[l:=cell X' (Some cl)]> ∅, w) (WSTemplate kids 0)) as [| |h2 s2]; try discriminate. eauto. }
    destruct H2 as (? & ? & ? & H2 & H3). pose proof (co_intro _ _ _ _ _ _ _ _ _ (ex_intro _ _ H2) H3) as H4.
    eapply co_after in H4; [|exists 1; cbn; by rewrite Eb].
    destruct (run_copies _ _ _ _ _ _ _ _ _ _ _ _ Hfrom Eb H4) as (r0 & -> & Hr). by destruct r0.
Qed.
Lemma append_inner c w : Inner_is (WCBAppend (wcontent_stream c)) w (h0 w) (wappend_new CC (wcontent_stream c))
  (fun r w' => exists r0, ContentRuns c w r0 w' /\ r = followed kids r0).
Proof.
  destruct (kids_run w) as [X' Hk]. split; [done|]. split.
  - intros r1 w2 (r0 & Hc & ->). eexists. split.
    + apply combined. left. eexists _, kids, r0. split; [exact Hk|]. split; [|done]. apply content_co. eauto.
    + intros t _. exists X'. by rewrite lookup_insert.
  - intros y r1 H. apply combined in H as [(h1 & t & r0 & H1 & H2 & ->)|(e & H1 & ->)];
      destruct (co_det _ _ _ _ _ _ _ H1 Hk) as [E1 E2]; [|discriminate]. injection E2 as ->. subst h1.
    apply content_co in H2 as (w2 & -> & H2). eauto.
Qed.
Lemma prepend_inner c w : Inner_is (WCBPrepend (wcontent_stream c)) w (h0 w) (wprepend_new CC (wcontent_stream c))
  (fun r w' => exists r0, ContentRuns c w r0 w' /\ r = around [] r0 kids).
Proof.
  split; [done|]. split.
  - intros r1 w2 (r0 & Hc & ->). destruct (kids_run w2) as [X' Hk]. destruct r0 as [t|e]; cbn.
    + eexists. split.
      * apply combined. left. eexists _, t, (inl kids). split; [apply content_co; eauto|]. split; [exact Hk|done].
      * intros u _. exists X'. by rewrite lookup_insert.
    + eexists. split; [|done]. apply combined. right. exists e. split; [|done]. apply content_co. eauto.
  - intros y r1 H. apply combined in H as [(h1 & t & r0 & H1 & H2 & ->)|(e & H1 & ->)]; apply content_co in H1 as (w2 & -> & H1).
    + destruct (kids_run w2) as [X' Hk]. destruct (co_det _ _ _ _ _ _ _ H2 Hk) as [-> ->]. by exists (inl t).
    + by exists (inr e).
Qed.
Lemma replace_inner c w : Inner_is (WCBReplace (wcontent_stream c)) w (h0 w) (wreplace_new CC (wcontent_stream c))
  (fun r w' => ContentRuns c w r w').
Proof.
  split; [done|]. split.
  - intros r1 w2 Hc. destruct (kids_run w2) as [X' Hk]. destruct r1 as [t|e]; cbn.
    + eexists. split.
      * apply combined. left. eexists _, t, (inl []). split; [apply content_co; eauto|].
        split; [apply removed; eexists; split; [exact Hk|done]|]. cbn. by rewrite app_nil_r.
      * intros u _. exists X'. by rewrite lookup_insert.
    + eexists. split; [|done]. apply combined. right. exists e. split; [|done]. apply content_co. eauto.
  - intros y r1 H. apply combined in H as [(h1 & t & r0 & H1 & H2 & ->)|(e & H1 & ->)]; apply content_co in H1 as (w2 & -> & H1); [|done].
    destruct (kids_run w2) as [X' Hk]. apply removed in H2 as (r2 & H2 & ->).
    destruct (co_det _ _ _ _ _ _ _ H2 Hk) as [-> ->]. cbn. by rewrite app_nil_r.
Qed.
End One.

Lemma gives_builder evs (b : once W) w r w' : GivesIn evs b w r w' <->
  exists h1 s1 g', run_builder b (∅, w) (WSTemplate evs 0) = WDone h1 s1 /\ CoTo h1 s1 [] (g', w') r.
Proof.
  unfold GivesIn, wtransform. split.
  - intros (n & h' & E). destruct (run_builder b (∅, w) _) as [| |h s]; cbn in E; try discriminate.
    exists h, s, h'. split; [done|by exists n].
  - intros (h & s & h' & E & n & Hc). exists n, h'. by rewrite E.
Qed.
(** [repeat_contents_or_else], given what its two streams give *)
Lemma contents_or_else evs it b w (Rest : W -> once W -> list event + stream_error -> W -> Prop) :
  (forall w1 b0 r w', (exists g', CoTo (∅, w1) (wselect_content_new (WSTemplate evs 0)
      (WCBRepeat (Items (Some b0) (fun n => it (S n))))) [] (g', w') r) <-> Rest w1 b0 r w') ->
  forall r w', GivesIn evs (calls [WRepeatContentsOrElse it b]) w r w' <->
  (exists w1, it 0 w = (w1, None) /\ GivesIn evs b w1 r w') \/
  (exists w1 b0, it 0 w = (w1, Some b0) /\ Rest w1 b0 r w').
Proof.
  intros HR r w'. rewrite (gives_run evs [] (fun s => WSRepeatOrElse (Some (WROEStart true s it b))) (WRepeatContentsOrElse it b)) by done. cbn [wbuild].
  destruct (it 0 w) as [w1 [b0|]] eqn:Ei.
  - assert (forall x, CoTo (∅, w) (WSRepeatOrElse (Some (WROEStart true (WSTemplate evs 0) it b))) [] x r <->
      CoTo (∅, w1) (wselect_content_new (WSTemplate evs 0) (WCBRepeat (Items (Some b0) (fun n => it (S n))))) [] x r) as Hs.
    { intros x. rewrite <- (through_co _ _ through_repeat (∅, w1) (wselect_content_new _ _)). refine (co_ne _ _ _ _ _ _ _ _).
      exists 1. cbn. by rewrite Ei. }
    split.
    + intros (h & s & g' & [= <- <-] & H). right. exists w1, b0. split; [done|]. apply HR. exists g'. by apply Hs.
    + intros [(? & [=] & _)|(? & ? & [= <- <-] & H)]. apply HR in H as [g' H]. exists (∅, w), (WSTemplate evs 0), g'.
      split; [done|]. by apply Hs.
  - assert (forall h1 s1 x, run_builder b (∅, w1) (WSTemplate evs 0) = WDone h1 s1 ->
      (CoTo (∅, w) (WSRepeatOrElse (Some (WROEStart true (WSTemplate evs 0) it b))) [] x r <-> CoTo h1 s1 [] x r)) as Hs.
    { intros h1 s1 x E. rewrite <- (through_co _ _ through_fallback h1 s1). refine (co_ne _ _ _ _ _ _ _ _).
      exists 1. cbn. by rewrite Ei, E. }
    split.
    + intros (h & s & g' & [= <- <-] & H). left. exists w1. split; [done|]. apply gives_builder.
      assert (exists h1 s1, run_builder b (∅, w1) (WSTemplate evs 0) = WDone h1 s1) as (h1 & s1 & E).
      { unfold run_builder. cbn [fst snd]. destruct (b w1) as [w2 q]. apply build_done. }
      exists h1, s1, g'. split; [done|]. by apply (Hs _ _ _ E).
    + intros [(? & [= <-] & H)|(? & ? & [=] & _)]. apply gives_builder in H as (h1 & s1 & g' & E & H).
      exists (∅, w), (WSTemplate evs 0), g'. split; [done|]. by apply (Hs _ _ _ E).
Qed.

(** ** The calls *)

Section Calls.
Context (x : tree) (op : event) (kids : list tree) (cl : event) (HP : ProperTree x) (HI : Inside x op kids cl).
Implicit Types (w : W) (r : list event + stream_error).

Lemma repeat_contents_state it w r w' : GivesIn (tree_events x) (calls [WRepeatContents it]) w r w' <->
  exists r1, Repeats (events kids) it 0 w r1 w' /\ r = around [op] r1 [cl].
Proof.
  destruct (opened x op kids cl HP HI) as (tag & X & HO). by apply (around_gives _ _ _ _ _ _ HO (WRepeatContents it) _ _ _ _ _ (fun _ _ => eq_refl) (repeat_inner _ _ _ _ _ _ HO it w)).
Qed.
Lemma append_contents_state c w r w' : GivesIn (tree_events x) (calls [WAppendContents c]) w r w' <->
  exists r1, ContentRuns c w r1 w' /\ r = around (op :: events kids) r1 [cl].
Proof.
  destruct (opened x op kids cl HP HI) as (tag & X & HO).
  rewrite (around_gives _ _ _ _ _ _ HO (WAppendContents c) _ _ _ _ _ (fun _ _ => eq_refl) (append_inner _ _ _ _ _ _ HO c w)). split.
  - intros (r1 & (r0 & H & ->) & ->). exists r0. split; [done|]. destruct r0; cbn; [by rewrite <- app_assoc|done].
  - intros (r0 & H & ->). eexists. split; [by exists r0|]. destruct r0; cbn; [by rewrite <- app_assoc|done].
Qed.
Lemma prepend_contents_state c w r w' : GivesIn (tree_events x) (calls [WPrependContents c]) w r w' <->
  exists r1, ContentRuns c w r1 w' /\ r = around [op] r1 (events kids ++ [cl]).
Proof.
  destruct (opened x op kids cl HP HI) as (tag & X & HO).
  rewrite (around_gives _ _ _ _ _ _ HO (WPrependContents c) _ _ _ _ _ (fun _ _ => eq_refl) (prepend_inner _ _ _ _ _ _ HO c w)). split.
  - intros (r1 & (r0 & H & ->) & ->). exists r0. split; [done|]. destruct r0; cbn; [by rewrite <- app_assoc|done].
  - intros (r0 & H & ->). eexists. split; [by exists r0|]. destruct r0; cbn; [by rewrite <- app_assoc|done].
Qed.
Lemma replace_contents_state c w r w' : GivesIn (tree_events x) (calls [WReplaceContents c]) w r w' <->
  exists r1, ContentRuns c w r1 w' /\ r = around [op] r1 [cl].
Proof.
  destruct (opened x op kids cl HP HI) as (tag & X & HO).
  by rewrite (around_gives _ _ _ _ _ _ HO (WReplaceContents c) _ _ _ _ _ (fun _ _ => eq_refl) (replace_inner _ _ _ _ _ _ HO c w)).
Qed.
Lemma repeat_contents_or_else_state it b w r w' : GivesIn (tree_events x) (calls [WRepeatContentsOrElse it b]) w r w' <->
  (exists w1, it 0 w = (w1, None) /\ GivesIn (tree_events x) b w1 r w') \/
  (exists w1 b0, it 0 w = (w1, Some b0) /\ exists r1, Copies (events kids) it 0 (Some b0) w1 r1 w' /\ r = around [op] r1 [cl]).
Proof.
  destruct (opened x op kids cl HP HI) as (tag & X & HO).
  refine (contents_or_else (tree_events x) it b w (fun w1 b0 r w' => exists r1, Copies (events kids) it 0 (Some b0) w1 r1 w' /\ r = around [op] r1 [cl]) _ r w').
  intros w1 b0 r0 w0. exact (around_co _ _ _ _ _ _ HO _ _ _ _ _ (copies_inner _ _ _ _ _ _ HO it b0 w1) r0 w0).
Qed.
End Calls.

(** ** Void elements *)

Lemma void_co t a b w x r : CoTo (∅, w) (wselect_content_new (WSTemplate [VoidTag t a] 0) b) [] x r <->
  x = ((∅, w) : wheap W) /\ r = inl [VoidTag t a].
Proof.
  assert (CoTo (∅, w) (wselect_content_new (WSTemplate [VoidTag t a] 0) b) [] (∅, w) (inl [VoidTag t a])) as H.
  { eapply (ne_emit _ _ (∅, w) (WSSelectContent None) (VoidTag t a)); [by exists 5|]. eapply ne_none. by exists 1. }
  split; [|by intros [-> ->]]. intros H'. exact (co_det _ _ _ _ _ _ _ H' H).
Qed.
Lemma void_state t a (o : wop W) b w r w' : (forall h s, wbuild_op o h s = WDone h (wselect_content_new s b)) ->
  (GivesIn [VoidTag t a] (calls [o]) w r w' <-> w' = w /\ r = inl [VoidTag t a]).
Proof.
  intros Ho. rewrite (gives_run [VoidTag t a] [] (fun s => wselect_content_new s b) o) by done. cbn [wbuild]. split.
  - intros (h & s & g' & [= <- <-] & H). apply void_co in H as [[= -> ->] ->]. done.
  - intros [-> ->]. exists (∅, w), (WSTemplate [VoidTag t a] 0), ∅. split; [done|]. by apply void_co.
Qed.
Lemma void_or_else t a it (b : once W) w r w' : GivesIn [VoidTag t a] (calls [WRepeatContentsOrElse it b]) w r w' <->
  (exists w1, it 0 w = (w1, None) /\ GivesIn [VoidTag t a] b w1 r w') \/
  (exists w1 b0, it 0 w = (w1, Some b0) /\ w' = w1 /\ r = inl [VoidTag t a]).
Proof.
  refine (contents_or_else [VoidTag t a] it b w (fun w1 _ r w' => w' = w1 /\ r = inl [VoidTag t a]) _ r w').
  intros w1 b0 r0 w0. split.
  - intros (g' & H). apply void_co in H as [[= -> ->] ->]. done.
  - intros [-> ->]. exists ∅. by apply void_co.
Qed.
Lemma void_repeat t a (it : iterator W) w r w' :
  GivesIn [VoidTag t a] (calls [WRepeatContents it]) w r w' <-> w' = w /\ r = inl [VoidTag t a].
Proof. by apply (void_state t a (WRepeatContents it) (WCBRepeat (plain it))). Qed.
Lemma void_content t a (c : wcontent W) o w r w' :
  o = WAppendContents c \/ o = WPrependContents c \/ o = WReplaceContents c ->
  GivesIn [VoidTag t a] (calls [o]) w r w' <-> w' = w /\ r = inl [VoidTag t a].
Proof.
  intros [->|[->| ->]].
  - by apply (void_state t a (WAppendContents c) (WCBAppend (wcontent_stream c))).
  - by apply (void_state t a (WPrependContents c) (WCBPrepend (wcontent_stream c))).
  - by apply (void_state t a (WReplaceContents c) (WCBReplace (wcontent_stream c))).
Qed.
End Contents.
