(** Proofs about two texts, one after the other. *)
From Coq Require Import String List NArith Arith Bool Lia.
Import ListNotations.
From Verif Require Import Text Event Input Parse Selector Template SpecText SpecAttr SpecLocation SpecParse
  SpecDocument TextProofs AttrProofs AttrProofs2 LocationProofs ParseProofs ParseProofs2 ParseProofs3
  ParseProofs4 ParseProofs5 ParseProofs6 ParseProofs7 ParseProofs10 ParseProofs12 ParseProofs13.
Local Open Scope N_scope.

(** ** Locations *)

Lemma at_prefix_moved a la p l : AtPrefix a la -> AtPrefix p l -> AtPrefix (a ++ p) (moved la l).
Proof.
  intros (L1 & (t1 & T1 & C1) & O1) (L2 & (t2 & T2 & C2) & O2). unfold moved.
  split; [|split]; cbn [line column offset].
  - rewrite count_occ_app. unfold char in *. lia.
  - destruct (in_dec N.eq_dec 10 p) as [Hi|Hi].
    + exists t2. split; [now apply last_line_app_nl|].
      replace (Nat.eqb (line l) 1) with false; auto. symmetry. apply Nat.eqb_neq.
      apply (count_occ_In N.eq_dec) in Hi. lia.
    + exists (t1 ++ p). split; [now apply last_line_app_no|]. rewrite app_length.
      assert (p = t2).
      { destruct T2 as [_ [E|(x & E)]]; auto. exfalso. apply Hi. rewrite E, in_app_iff. right. now left. }
      subst t2. pose proof (proj1 (count_occ_not_In N.eq_dec p 10) Hi) as Z.
      replace (line l) with 1%nat by lia. simpl. lia.
  - rewrite utf8_app, app_length. lia.
Qed.
Lemma located_moved a la pre s r l : AtPrefix a la -> LocatedAt pre s r l ->
  LocatedAt (a ++ pre) s r (moved la l).
Proof.
  intros Ha (q & E & H). exists q. split; auto. rewrite <- app_assoc. now apply at_prefix_moved.
Qed.

(** ** Reading the second text *)

Definition shift (a : str) (st : open_stack) : open_stack := map (fun e => (a ++ fst e, snd e)) st.

Lemma nest_shift limit a pre ev st st' : Nest limit pre ev st st' ->
  Nest limit (a ++ pre) ev (shift a st) (shift a st').
Proof.
  destruct ev; cbn [Nest]; try (intros ->; reflexivity).
  - intros [H ->]. split; [unfold shift; now rewrite map_length|reflexivity].
  - intros (p & n & -> & H). exists (a ++ p), n. auto.
Qed.
Lemma reads_after limit a ea b p rest m st evs : Reads limit (a ++ b) a b None [] ea ->
  Reads limit b p rest m st evs ->
  Reads limit (a ++ b) (a ++ p) rest m (shift a st) (ea ++ evs).
Proof.
  intros Ha H. induction H as [|pre slice rest m m' st st' evs ev HR IH Hne Hi Hn].
  - now rewrite !app_nil_r.
  - rewrite !app_assoc. eapply R_step; eauto. now apply nest_shift.
Qed.
Lemma reads_glue limit x b p rest m st evs : Reads limit b p rest m st evs -> ~ In 60 x -> forall y evs',
  evs = Data (raw y) :: evs' ->
  Reads limit (x ++ b) (x ++ p) rest m (shift x st) (Data (raw (x ++ y)) :: evs').
Proof.
  intros H Hx. induction H as [|pre slice rest m m' st st' evs ev HR IH Hne Hi Hn]; intros y evs' E.
  - discriminate.
  - rewrite app_assoc. destruct evs as [|e evs].
    + injection E as -> <-. inversion HR; subst; [|now destruct evs].
      cbn [Nest] in Hn. subst st'. rewrite app_nil_r.
      inversion Hi as [? ? ? ? Hs Ha Hb|]; subst. inversion Hs; subst.
      apply (R_step limit (x ++ y ++ rest) [] (x ++ y) rest None m' [] [] []).
      * rewrite <- app_assoc. constructor.
      * destruct x; [|discriminate]. simpl. auto.
      * constructor; auto. constructor; [destruct x; auto; discriminate|].
        intros Z. apply in_app_iff in Z. tauto.
      * reflexivity.
    + injection E as -> <-. specialize (IH y evs eq_refl).
      apply (R_step limit (x ++ b) (x ++ pre) slice rest m m' (shift x st) (shift x st') _ ev) in IH; auto.
      now apply nest_shift.
Qed.

(** the first text stays read *)
Lemma first_stays limit a ea b : Document limit a ea ->
  (b = [] \/ Begins (eq 60) b \/ ~ exists e x, ea = e ++ [Data x]) ->
  Reads limit (a ++ b) a b None [] ea.
Proof.
  intros R Hb. unfold Document in R. destruct b as [|c b].
  { now rewrite app_nil_r. }
  inversion R as [|pre0 slice rest0 m0 m' st0 st' evs0 ev HR Hne Hi Hns E1 E2 E3 E4 E5]; subst.
  - constructor.
  - assert (HR' := HR). apply reads_extend with (t := c :: b) in HR'; auto.
    rewrite app_nil_r in HR'.
    eapply R_step; [exact HR'|destruct slice; discriminate| |exact Hns].
    inversion Hi as [? ? ? ? Hs Ha Hd|r ? ? Hr Hf]; subst.
    + constructor; auto. destruct ev; auto.
      destruct Hb as [|[Hb|Hb]]; [discriminate|now right|]. exfalso. apply Hb. eauto.
    + exfalso. apply reads_mode in HR. cbn [Nest] in Hns. subst. tauto.
Qed.
Lemma last_data (ea : list event) : (exists e x, ea = e ++ [Data x]) \/ ~ exists e x, ea = e ++ [Data x].
Proof.
  destruct ea as [|ev ea] using rev_ind.
  - right. intros (e & x & E). now destruct e.
  - destruct ev; try (right; intros (e & x & E); apply app_inj_tail in E; destruct E; discriminate).
    left. eauto.
Qed.
(** the first event of a text says how the text begins *)
Lemma reads_first limit b p rest m st ev evs : Reads limit b p rest m st (ev :: evs) ->
  match ev with Data d => ~ Begins (eq 60) b /\ b <> [] /\ exists y, d = raw y | _ => Begins (eq 60) b end.
Proof.
  intros H. remember (ev :: evs) as es eqn:E. revert ev evs E.
  induction H as [|pre slice rest m m' st st' evs0 ev0 HR IH Hne Hi Hn]; intros ev evs E; [discriminate|].
  destruct evs0 as [|e evs0].
  - injection E as -> <-. inversion HR as [E1 E2|]; subst; [|now destruct evs].
    inversion Hi as [? ? ? ? Hs Ha Hb|]; subst. pose proof (spells_starts _ _ Hs) as X.
    pose proof (spells_nonempty _ _ Hs) as Hne'.
    destruct ev; try (now apply begins_app). split; [now rewrite begins_app|]. split; auto.
    inversion Hs; subst. eauto.
  - injection E as -> <-. eapply IH. reflexivity.
Qed.

Lemma join limit a ea b p rest m st evs : Document limit a ea -> Reads limit b p rest m st evs ->
  (p <> [] \/ b = [] \/ Begins (eq 60) b) ->
  exists evs', Joined ea evs evs' /\ Reads limit (a ++ b) (a ++ p) rest m (shift a st) evs'.
Proof.
  intros Ha Hb Hp. destruct (last_data ea) as [(ea0 & x & ->)|Hn].
  - assert (C : (b = [] \/ Begins (eq 60) b) \/ (b <> [] /\ ~ Begins (eq 60) b)).
    { destruct b; auto. destruct (begins_eq_dec 60 (c :: b)); [auto|]. right. split; [discriminate|auto]. }
    destruct C as [C|[C1 C2]].
    + exists ((ea0 ++ [Data x]) ++ evs). split.
      * apply J_plain. intros (a' & x' & y' & b' & _ & ->). apply reads_first in Hb. tauto.
      * apply reads_after; auto. apply first_stays; tauto.
    + assert (He : exists y evs', evs = Data (raw y) :: evs').
      { destruct evs as [|ev evs].
        - exfalso. inversion Hb; subst; [tauto|now destruct evs].
        - apply reads_first in Hb. destruct ev; try contradiction. destruct Hb as (_ & _ & y & ->). eauto. }
      destruct He as (y & evs' & ->).
      unfold Document in Ha.
      inversion Ha as [E|pre0 slice rest0 m0 m' st0 st' evs0 ev HR Hne Hi Hns E1 E2 E3 E4 E5]; subst; [now destruct ea0|].
      apply app_inj_tail in E5. destruct E5 as [-> ->].
      inversion Hi as [? ? ? ? Hs Hm Hd|]; subst. inversion Hs as [? Hne' H60| | | | | |]; subst.
      cbn [Nest] in Hns. subst st0.
      exists (ea0 ++ Data (raw (slice ++ y)) :: evs'). split; [constructor|].
      rewrite app_nil_r in HR. pose proof (reads_app _ _ _ _ _ _ _ HR) as Ea.
      apply reads_extend with (t := b) in HR; auto.
      pose proof (reads_glue _ slice _ _ _ _ _ _ Hb H60 _ _ eq_refl) as G.
      assert (HR2 : Reads limit (pre0 ++ slice ++ b) pre0 (slice ++ b) None [] ea0).
      { rewrite <- app_assoc in HR. exact HR. }
      pose proof (reads_after _ _ _ _ _ _ _ _ _ HR2 G) as Z.
      replace ((pre0 ++ slice) ++ b) with (pre0 ++ slice ++ b) by (now rewrite app_assoc).
      replace ((pre0 ++ slice) ++ p) with (pre0 ++ slice ++ p) by (now rewrite app_assoc).
      replace (shift (pre0 ++ slice) st) with (shift pre0 (shift slice st)); [exact Z|].
      unfold shift. rewrite map_map. apply map_ext. intros [q n]. cbn. now rewrite app_assoc.
  - exists (ea ++ evs). split.
    + apply J_plain. intros (a' & x' & y' & b' & -> & _). apply Hn. eauto.
    + apply reads_after; auto. apply first_stays; auto.
Qed.

(** ** Documents *)

Lemma joined_documents a b o ea eb : from_str a o = TOk ea -> from_str b o = TOk eb ->
  (forall n, max_input_len o = Some n -> (length (utf8 (a ++ b)) <= n)%nat) ->
  exists evs, Joined ea eb evs /\ from_str (a ++ b) o = TOk evs.
Proof.
  rewrite !from_str_ok, !parse_iff. intros [Ha _] [Hb _] Hn.
  destruct (join _ _ _ _ _ _ _ _ _ Ha Hb) as (evs & J & R).
  { destruct b; [auto|left; discriminate]. }
  exists evs. split; auto. apply from_str_ok. split; [now apply parse_iff|]. destruct (max_input_len o); auto.
Qed.
Lemma display_app a b : display_events (a ++ b) = display_events a ++ display_events b.
Proof. induction a as [|e a IH]; [reflexivity|]. cbn [app display_events]. now rewrite IH, app_assoc. Qed.
Lemma joined_display ea eb evs : Joined ea eb evs ->
  display_events evs = display_events ea ++ display_events eb.
Proof.
  destruct 1 as [a x y b|a b _]; [|apply display_app]. rewrite !display_app. cbn [display_events display_event].
  rewrite app_nil_r, <- app_assoc. f_equal. apply (app_assoc_reverse x y).
Qed.

(** ** Errors *)

Lemma unclosed_moved a la e x : AtPrefix a la -> Unclosed e x ->
  Unclosed (a ++ fst e, snd e) (fst x, moved la (snd x)).
Proof. intros Ha [H1 H2]. split; auto. now apply at_prefix_moved. Qed.
Lemma unclosed_all_moved a la : AtPrefix a la -> forall b os, Forall2 Unclosed b os ->
  Forall2 Unclosed (map (fun e => (a ++ fst e, snd e)) b) (map (fun x => (fst x, moved la (snd x))) os).
Proof. intros Ha b os H. induction H; cbn [map]; constructor; auto. now apply unclosed_moved. Qed.
Lemma fault_moved limit a la pre s st e : AtPrefix a la -> Fault limit pre s st e ->
  Fault limit (a ++ pre) s (shift a st) (relocate (moved la) e).
Proof.
  intros Ha F. assert (A := fun p l => at_prefix_moved a la p l Ha).
  assert (L := fun p s r l => located_moved a la p s r l Ha).
  destruct e; cbn [Fault relocate] in *.
  - destruct F as [Hl F]. auto.
  - destruct F as [Hl F]. auto.
  - destruct F as [Hl F]. auto.
  - destruct F as (x & r & Hl & F). exists x, r. auto.
  - destruct F as (w & w' & w'' & r & F). exists w, w', w'', r. intuition auto.
  - destruct F as (Hc & Hd & w & r & F). split; auto. split; auto. exists w, r. intuition auto.
  - destruct F as (Hc & Hd & w & x & r & F). split; auto. split; auto. exists w, x, r. intuition auto.
  - destruct F as (w & w' & r & F). exists w, w', r. intuition auto.
  - destruct F as (w & w' & x & r & F). exists w, w', x, r. intuition auto.
  - destruct F as (n & at' & x & r & F). exists n, at', x, r. intuition auto.
  - destruct F as (at' & w & w' & r & F). exists at', w, w', r. intuition auto.
  - destruct F as (at' & w & w' & r & F). exists at', w, w', r. intuition auto.
  - exact F.
  - destruct F as (-> & top & below & -> & Ht & Hb). split; auto. 
    exists (a ++ fst top, snd top), (shift a below). split; [reflexivity|]. split; [now apply unclosed_moved|].
    unfold shift. rewrite <- map_rev. exact (unclosed_all_moved a la Ha _ _ Hb).
  - destruct F as (Hl & F1 & F2 & F). split; auto. split; auto. split; auto. unfold shift. now rewrite map_length.
  - destruct F as (Hl & -> & F). auto.
  - destruct F as (Hl & p & st' & -> & Hp & F). split; auto. exists (a ++ p), (shift a st'). auto.
Qed.
Lemma fault_begins limit pre s st e : Fault limit pre s st e -> s = [] \/ Begins (eq 60) s.
Proof.
  assert (T : forall s n a r, TagStart s n a r -> s = [] \/ Begins (eq 60) s).
  { intros s0 n a r (_ & _ & w & w' & s' & -> & _). right. now apply begins_cons. }
  assert (D : forall r : str, lit "<!" ++ r = [] \/ Begins (eq 60) (lit "<!" ++ r)).
  { intros r. right. now apply begins_cons. }
  assert (C : forall r : str, 60 :: r = [] \/ Begins (eq 60) (60 :: r)).
  { intros r. right. now apply begins_cons. }
  assert (E : forall sl n r, EndTag sl n -> sl ++ r = [] \/ Begins (eq 60) (sl ++ r)).
  { intros sl n r (w & w' & w'' & -> & _). right. now apply begins_cons. }
  destruct e; cbn [Fault]; intros F.
  - destruct F as (_ & ? & ? & ? & ? & ? & -> & _). apply D.
  - destruct F as (_ & ? & ? & ? & -> & _). apply D.
  - destruct F as (_ & ? & -> & _). right. now apply begins_cons.
  - destruct F as (a & r & _ & _ & [(F & _)|(w & F & _)]); eapply T; eauto.
  - destruct F as (? & ? & ? & ? & -> & _). apply C.
  - destruct F as (_ & _ & ? & ? & -> & _). apply C.
  - destruct F as (_ & _ & ? & ? & ? & -> & _). apply C.
  - destruct F as (? & ? & ? & -> & _). apply C.
  - destruct F as (? & ? & ? & ? & -> & _). apply C.
  - destruct F as (? & ? & ? & ? & F & _); eapply T; eauto.
  - destruct F as (? & ? & ? & ? & F & _); eapply T; eauto.
  - destruct F as (? & ? & ? & ? & F & _); eapply T; eauto.
  - destruct F.
  - destruct F as (-> & _). now left.
  - destruct F as (_ & _ & _ & sl & rs & tag0 & a & -> & Hs & _). right.
    pose proof (spells_starts _ _ Hs) as X. apply begins_app; auto. now apply spells_nonempty in Hs.
  - destruct F as (_ & _ & sl & rs & -> & Hs). eapply E; eauto.
  - destruct F as (_ & p & st' & _ & _ & sl & rs & -> & Hs & _). eapply E; eauto.
Qed.
Lemma joined_error a b o ea la e : from_str a o = TOk ea -> AtPrefix a la ->
  from_str b o = TErr (ParseError e) ->
  (forall n, max_input_len o = Some n -> (length (utf8 (a ++ b)) <= n)%nat) ->
  from_str (a ++ b) o = TErr (ParseError (relocate (moved la) e)).
Proof.
  rewrite from_str_ok, parse_iff, !errors_exact. intros [Ha _] Hla (_ & p & rest & m & st & evs & E & R & Hm & F) Hn.
  split; [destruct (max_input_len o); auto|].
  destruct (join _ _ _ _ _ _ _ _ _ Ha R) as (evs' & _ & R').
  { destruct p; [|left; discriminate]. right. simpl in E. subst rest. eapply fault_begins; eauto. }
  exists (a ++ p), rest, m, (shift a st), evs'. split; [rewrite E; apply app_assoc|].
  split; auto. split; auto. now apply fault_moved.
Qed.
