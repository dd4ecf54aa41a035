(** Proofs for C67, part 4: more fuel does not change the result of a run in a world; an
    iterator that never ends; consequences. *)
From Coq Require Import String ZArith Lia.
From stdpp Require Import gmap.
From Verif Require Import Text Event Input Parse Selector Machine MachineState.
From Verif Require Import SpecTree SpecTransform SpecState StateProofs StateProofs2 StateProofs3.
Local Open Scope nat_scope.

Section Fuel.
Context {W : Type}.

(** [o'] is the result [o], or [o] is no result yet. *)
Definition wle {A} (o o' : wout W A) : Prop := o = WOutOfFuel \/ o = o'.

Lemma wle_refl {A} (o : wout W A) : wle o o.
Proof. now right. Qed.
Lemma wle_trans {A} (a b c : wout W A) : wle a b -> wle b c -> wle a c.
Proof. intros [->| ->]; [now left|auto]. Qed.
Lemma wle_bind {A B} (o o' : wout W A) (k k' : wheap W -> A -> wout W B) :
  wle o o' -> (forall h a, wle (k h a) (k' h a)) -> wle (wbind o k) (wbind o' k').
Proof.
  intros [->| ->] Hk; [now left|]. destruct o'; simpl; auto using wle_refl.
Qed.
Lemma wle_on_ok (o o' : wstep_out W) dead (k k' : wheap W -> wstrm W -> option event -> wstep_out W) :
  wle o o' -> (forall h s r, wle (k h s r) (k' h s r)) ->
  wle (won_ok o dead k) (won_ok o' dead k').
Proof.
  intros Ho Hk. apply wle_bind; auto. intros h [s [r|err]]; auto using wle_refl.
Qed.
Lemma wle_passthrough (o o' : wstep_out W) dead cont :
  wle o o' -> wle (wpassthrough o dead cont) (wpassthrough o' dead cont).
Proof. intros Ho. apply wle_on_ok; auto using wle_refl. Qed.
Lemma wle_with_cell h l (f f' : wheap W -> wstrm W -> wstep_out W) :
  (forall h s, wle (f h s) (f' h s)) -> wle (wwith_cell h l f) (wwith_cell h l f').
Proof.
  intros Hf. unfold wwith_cell. destruct (fst h !! l) as [[s|]|]; auto using wle_refl.
  apply wle_bind; auto. intros h' [s' r]. apply wle_refl.
Qed.

Definition wle_engine (e e' : wengine W) : Prop :=
  (forall h s, wle (wne e h s) (wne e' h s)) /\ (forall h s, wle (wsk e h s) (wsk e' h s)) /\
  (forall h s, wle (wdr e h s) (wdr e' h s)) /\
  (forall h s acc, wle (wco e h s acc) (wco e' h s acc)).

Lemma wle_peek e e' h s : wle_engine e e' -> wle (wpeek e h s) (wpeek e' h s).
Proof.
  intros (Hn & Hs & Hd & Hc). destruct s; try apply wle_refl. destruct buffered; [apply wle_refl|].
  apply wle_on_ok; auto using wle_refl.
Qed.

Lemma wle_ne_body e e' h s : wle_engine e e' -> wle (wne_body e h s) (wne_body e' h s).
Proof.
  intros He. pose proof He as (Hn & Hs & Hd & Hc).
  destruct s as [| |[] | | |[[[|]|]|]|[[]|]|? []|[[]|]| |[[]|]|? ? ? ? ? [[]|]|? [[]|]|[[]|]
                 |[[[]]|]| |[[]|]|[[]|]|[[]|]|[[]|]]; cbn [wne_body];
    try apply wle_refl;
    try (apply wle_passthrough; auto);
    try (apply wle_on_ok; auto using wle_refl; fail);
    try (apply wle_bind; auto using wle_refl; fail);
    auto.
  - apply wle_with_cell; auto.
  - destruct (negb (Nat.eqb n 0)).
    + apply wle_on_ok; auto using wle_refl.
    + apply wle_on_ok; [apply wle_with_cell; intros; now apply wle_peek|].
      intros h1 s1 [ev|]; [|apply wle_refl]. destruct (is_closing_tag_for ev i); [apply wle_refl|].
      apply wle_on_ok; auto using wle_refl.
Qed.

Lemma wle_run n : wle_engine (wrun n) (wrun (S n)).
Proof.
  induction n as [|n IH].
  - repeat split; intros; now left.
  - pose proof IH as (Hn & Hs & Hd & Hc). split; [|split; [|split]].
    + intros h s. now apply wle_ne_body.
    + intros h s. apply wle_bind; auto. intros h1 [s1 [[[]|]|]]; auto using wle_refl.
    + intros h s. apply wle_bind; auto. intros h1 [s1 [[ev|]|]]; auto using wle_refl.
    + intros h s acc. apply wle_bind; auto. intros h1 [s1 [[ev|]|]]; auto using wle_refl.
Qed.

Lemma wle_co n m h s acc : n <= m -> wle (wco (wrun n) h s acc) (wco (wrun m) h s acc).
Proof.
  induction 1 as [|m _ IH]; [apply wle_refl|]. eapply wle_trans; [exact IH|]. apply wle_run.
Qed.

Lemma wtransform_mono n m evs (b : once W) w :
  n <= m -> wle (wtransform n evs b w) (wtransform m evs b w).
Proof.
  intros Hle. unfold wtransform. apply wle_bind; [apply wle_refl|]. intros h s. now apply wle_co.
Qed.
Lemma wtransform_done n m evs (b : once W) w h r :
  n <= m -> wtransform n evs b w = WDone h r -> wtransform m evs b w = WDone h r.
Proof.
  intros Hle H. destruct (wtransform_mono n m evs b w Hle) as [E|E]; congruence.
Qed.
Lemma gives_in_det evs (b : once W) w r w' r' w'' :
  GivesIn evs b w r w' -> GivesIn evs b w r' w'' -> r = r' /\ w' = w''.
Proof.
  intros (n & h & H1) (m & h' & H2). destruct (Nat.le_ge_cases n m) as [Hle|Hle].
  - pose proof (wtransform_done _ _ _ _ _ _ _ Hle H1) as E. rewrite H2 in E. by inversion E.
  - pose proof (wtransform_done _ _ _ _ _ _ _ Hle H2) as E. rewrite H1 in E. by inversion E.
Qed.

End Fuel.

(** ** Consequences *)

From Verif Require Import SpecOps TreeProofs ErrorProofs SelectionProofs OpProofs RobustProofs ApiProofs.

Lemma unroll_gives {W} N evs (b : once W) w r w' : GivesIn evs b w r w' ->
  exists p0, Possible N (snd (b w)) p0 /\ Gives evs p0 r.
Proof.
  intros (n & h & H). destruct (unroll N n evs b w) as (p0 & Hp & Ho). exists p0.
  split; [exact Hp|]. rewrite H in Ho. inversion Ho. exists n. eauto.
Qed.
Lemma in_world_no_panic {W} n evs (b : once W) w : wtransform n evs b w <> WPanicked.
Proof.
  destruct (unroll 0 n evs b w) as (p0 & Hp & Ho). intros E. rewrite E in Ho.
  destruct (transform n evs p0) eqn:Et; [inversion Ho|by apply (transform_never_panics n evs p0)|inversion Ho].
Qed.
Lemma stateless_gives {W} evs p (w : W) r w' :
  GivesIn evs (stateless p) w r w' <-> Gives evs p r /\ w' = w.
Proof.
  split.
  - intros (n & h & H). pose proof (stateless_same n evs p w) as E.
    destruct (transform n evs p) as [| |h0 r0] eqn:Et; [congruence..|].
    destruct E as [h1 E]. rewrite H in E. inversion E. subst. split; [|reflexivity].
    by exists n, h0.
  - intros [(n & h & H) ->]. pose proof (stateless_same n evs p w) as E. rewrite H in E.
    destruct E as [h1 E]. by exists n, h1.
Qed.
Lemma in_world_nested {W} N evs (b : once W) w out w' : WellNested evs ->
  (forall p0, Possible N (snd (b w)) p0 -> ValidArgs p0 /\ exists e, typed false p0 e) ->
  GivesIn evs b w (inl out) w' -> WellNested out.
Proof.
  intros Hn Hp H. destruct (unroll_gives N _ _ _ _ _ H) as (p0 & Hp0 & Hg).
  destruct (Hp _ Hp0) as [Hv [e Ht]]. apply (selection_well_nested e).
  exact (OpProofs.gives_selection false p0 e evs out Hn Ht Hv Hg).
Qed.

(** ** An iterator that never ends *)

Definition forever : once unit := fun w => (w, [WRepeat endless]).

Lemma endless_items N k bs0 : PossibleItems N k endless bs0 ->
  k <= length bs0 /\ Forall (fun p => p = []) bs0.
Proof.
  remember endless as it eqn:Eit. intros H. revert Eit.
  induction H as [k it w E|it|k it w b w' p0 bs0 E Hp Hi IH]; intros ->.
  - discriminate.
  - split; [apply Nat.le_refl|constructor].
  - destruct (IH eq_refl) as [Hl Hf]. injection E as <-. simpl in Hp. inversion Hp. subst.
    split; [simpl; lia|constructor; auto].
Qed.
Lemma forever_stays evs n w : WellNested evs -> evs <> [] ->
  wtransform n evs forever w = WOutOfFuel.
Proof.
  intros Hn Hne. destruct (wtransform n evs forever w) as [| |[h w'] r] eqn:E; [reflexivity| |].
  { exfalso. revert E. apply in_world_no_panic. }
  exfalso. set (N := match r with inl out => S (length out) | inr _ => 0 end).
  destruct (unroll_gives N evs forever w r w') as (p0 & Hp & Hg); [by exists n, h|].
  simpl in Hp. inversion Hp as [|o p o0 q Ho Hq]. subst. inversion Hq. subst.
  assert (exists bs0, o0 = ORepeat bs0 /\ PossibleItems N N endless bs0) as (bs0 & -> & Hi).
  { inversion Ho. eauto. }
  apply endless_items in Hi as [Hl Hf].
  assert (Gives evs [ORepeat bs0] (inl (List.concat (List.repeat evs (length bs0))))) as Hr.
  { apply (repeat_result false); [exact Hn| | |].
    - eapply Forall_impl; [exact Hf|]. intros p ->. eexists. constructor.
    - apply valid_args_wrap; try reflexivity. intros q Hin. rewrite Forall_forall in Hf.
      apply elem_of_list_In, Hf in Hin as ->.
      split; [|split; [|split]]; intros o; intros; exfalso;
      match goal with Ho : Occurs [] _ |- _ => inversion Ho; simpl in *; contradiction end.
    - clear -Hf Hn. induction Hf as [|p bs -> Hf IH]; constructor; auto. now apply identity_result. }
  pose proof (gives_det _ _ _ _ Hg Hr) as ->.
  assert (forall k, length (List.concat (List.repeat evs k)) = k * length evs) as Hlen.
  { induction k as [|k IH]; [reflexivity|]. simpl. rewrite app_length. lia. }
  subst N. rewrite Hlen in Hl. destruct evs; [done|]. simpl in Hl. lia.
Qed.

(** ** A stream that never ends *)

Definition forever_appending (ev : event) : once unit := fun w => (w, [WAppend (WCLive (endless_events ev))]).

Lemma endless_events_list ev k evs stop : PossibleEvents k (endless_events ev) evs stop ->
  k <= length evs /\ stop = None /\ Forall (fun x => x = ev) evs.
Proof.
  remember (endless_events ev) as f eqn:Ef. intros H. revert Ef.
  induction H as [k f w E|k f w err E|f|k f w ev' evs stop E Hi IH]; intros ->; try discriminate.
  - split_and!; [apply Nat.le_refl|done|constructor].
  - destruct (IH eq_refl) as (Hl & -> & Hf). injection E as <-.
    split_and!; [simpl; lia|done|by constructor].
Qed.
Lemma forever_appending_stays evs n w ev : WellNested evs -> ev <> Noop ->
  wtransform n evs (forever_appending ev) w = WOutOfFuel.
Proof.
  intros Hn Hev. destruct (wtransform n evs (forever_appending ev) w) as [| |[h w'] r] eqn:E; [reflexivity| |].
  { exfalso. revert E. apply in_world_no_panic. }
  exfalso. set (N := match r with inl out => S (length out) | inr _ => 0 end).
  destruct (unroll_gives N evs (forever_appending ev) w r w') as (p0 & Hp & Hg); [by exists n, h|].
  simpl in Hp. inversion Hp as [|o p o0 q Ho Hq]. subst. inversion Hq. subst.
  assert (exists l stop, o0 = OAppend (CStream l stop) /\ PossibleEvents N (endless_events ev) l stop)
    as (l & stop & -> & Hl).
  { inversion Ho as [| | | | | | | | |c c0 Hc| | | | | | | | | | | | | | | | | | | | |]. subst.
    inversion Hc. subst. eauto. }
  apply endless_events_list in Hl as (Hl & -> & Hf).
  assert (strip_noops l = l) as Hs.
  { clear -Hf Hev. induction Hf as [|x l -> Hf IH]; [reflexivity|]. unfold strip_noops in *. cbn. rewrite IH. by destruct ev. }
  assert (Gives evs [OAppend (CStream l None)] (inl (evs ++ l))) as Hr.
  { apply append_result; [exact Hn|rewrite <- Hs at 2; apply CG_stream|]. intros Hin. rewrite Forall_forall in Hf.
    apply elem_of_list_In, Hf in Hin. congruence. }
  pose proof (gives_det _ _ _ _ Hg Hr) as ->.
  subst N. rewrite app_length in Hl. lia.
Qed.
