(** Proofs for C63: potentials while streams are built. *)
From Coq Require Import List Lia PeanoNat.
From stdpp Require Import gmap.
From Verif Require Import Text Event Input Parse Selector Machine.
From Verif Require Import SpecTransform SpecWork MachineCost StreamBase WorkProofs2.
Local Open Scope nat_scope.

Definition Based (R : pots) (l : loc) (a : nat) : Prop := a = 0 \/ is_Some (R !! l).

(** Each cell has the potential of its stream. *)
Record Inv (R : pots) (h : heap) : Prop :=
  { inv_none : forall l, h !! l = None -> R !! l = None;
    inv_cell : forall l s, h !! l = Some (Cell s) ->
      exists l' a b d, R !! l = Some (l', a, b, d) /\ P R s l' a b d;
    inv_based : forall l l' a b d, R !! l = Some (l', a, b, d) ->
      Based R l' a /\ (a = 0 \/ l' <> l) }.

Record Move (del : loc -> nat) (R R' : pots) (h h' : heap) : Prop :=
  { mv_moved : Moved del R R';
    mv_inv : Inv R' h';
    mv_borrowed : forall l, h !! l = Some Borrowed -> del l = 0 /\ h' !! l = Some Borrowed }.

Notation zero := (fun _ : loc => 0).
Notation plus d1 d2 := (fun l : loc => d1 l + d2 l).

Lemma moved_refl R : Moved zero R R.
Proof. intros l l' a b d H. exists b. split; [exact H|]. cbv beta. lia. Qed.
Lemma moved_trans d1 d2 R1 R2 R3 :
  Moved d1 R1 R2 -> Moved d2 R2 R3 -> Moved (plus d1 d2) R1 R3.
Proof.
  intros H1 H2 l l' a b d H. destruct (H1 _ _ _ _ _ H) as (b1 & Hl & E1).
  destruct (H2 _ _ _ _ _ Hl) as (b2 & Hl' & E2). exists b2. split; [exact Hl'|]. cbv beta. lia.
Qed.
Lemma move_refl R h : Inv R h -> Move zero R R h h.
Proof. intros HI. split; [apply moved_refl|exact HI|]. auto. Qed.
Lemma move_trans d1 d2 R1 R2 R3 h1 h2 h3 :
  Move d1 R1 R2 h1 h2 -> Move d2 R2 R3 h2 h3 -> Move (plus d1 d2) R1 R3 h1 h3.
Proof.
  intros H1 H2. split.
  - eapply moved_trans; [apply H1|apply H2].
  - apply H2.
  - intros l Hl. apply H1 in Hl. destruct Hl as [E1 Hl]. apply H2 in Hl. destruct Hl as [E2 Hl].
    split; [cbv beta; lia|exact Hl].
Qed.
Lemma move_zero d R1 R2 R3 h1 h2 h3 :
  Move d R1 R2 h1 h2 -> Move zero R2 R3 h2 h3 -> Move d R1 R3 h1 h3.
Proof.
  intros H1 H2. pose proof (move_trans _ _ _ _ _ _ _ _ H1 H2) as [Hm Hi Hb]. split.
  - intros l l' a b d0 H. destruct (Hm _ _ _ _ _ H) as (b' & Hl & E). exists b'.
    split; [exact Hl|]. cbv beta in E. lia.
  - exact Hi.
  - intros l Hl. destruct (Hb l Hl). split; [cbv beta in *; lia|assumption].
Qed.

Lemma P_ext R R' s l a b d : Moved zero R R' -> P R s l a b d -> P R' s l a b d.
Proof. intros HM H. eapply P_mono; [eapply P_moved; eassumption|lia|cbv beta; lia|lia]. Qed.

Lemma based_moved del R R' l a : Moved del R R' -> Based R l a -> Based R' l a.
Proof.
  intros HM [H|[[[[l' a'] b'] d'] H]]; [left; exact H|right].
  destruct (HM _ _ _ _ _ H) as (b2 & E & _). rewrite E. eauto.
Qed.
Lemma based_le R l a a' : Based R l a -> a' <= a -> Based R l a'.
Proof. intros [H|H] Hle; [left; lia|right; exact H]. Qed.
Lemma based_mul R l a c : Based R l a -> Based R l (c * a).
Proof. intros [->|H]; [left; lia|right; exact H]. Qed.

(** ** A new cell *)

Lemma alloc R h s l a b d : Inv R h -> P R s l a b d -> Based R l a ->
  let c := fresh_loc h in
  Move zero R (<[c := (l, a, b, d)]> R) h (<[c := Cell s]> h) /\
  <[c := (l, a, b, d)]> R !! c = Some (l, a, b, d).
Proof.
  intros HI HP HB c.
  assert (Hc : h !! c = None) by apply fresh_loc_none.
  assert (HRc : R !! c = None) by (apply HI; exact Hc).
  assert (HM : Moved zero R (<[c := (l, a, b, d)]> R)).
  { intros l0 l' a0 b0 d0 H0. exists b0. split; [|cbv beta; lia].
    rewrite lookup_insert_ne; [exact H0|]. intros ->. rewrite HRc in H0. discriminate. }
  split; [|apply lookup_insert]. split; [exact HM| |].
  - split.
    + intros l0. destruct (decide (l0 = c)) as [->|Hn]; [rewrite lookup_insert; discriminate|].
      rewrite !lookup_insert_ne by congruence. apply HI.
    + intros l0 s0. destruct (decide (l0 = c)) as [->|Hn].
      * rewrite lookup_insert. intros [= <-]. exists l, a, b, d.
        split; [apply lookup_insert|]. eapply P_ext; eassumption.
      * rewrite !lookup_insert_ne by congruence. intros H0.
        destruct (inv_cell _ _ HI _ _ H0) as (l' & a' & b' & d' & E & HP').
        exists l', a', b', d'. split; [exact E|]. eapply P_ext; eassumption.
    + intros l0 l' a' b' d'. destruct (decide (l0 = c)) as [->|Hn].
      * rewrite lookup_insert. intros [= <- <- <- <-].
        split; [eapply based_moved; eassumption|].
        destruct HB as [HB|[x HB]]; [left; exact HB|right]. intros ->. congruence.
      * rewrite lookup_insert_ne by congruence. intros H0.
        destruct (inv_based _ _ HI _ _ _ _ _ H0) as [H1 H2].
        split; [eapply based_moved; eassumption|exact H2].
  - intros l0 H0. split; [reflexivity|]. rewrite lookup_insert_ne; [exact H0|].
    intros <-. rewrite Hc in H0. discriminate.
Qed.

(** ** Contents *)

Lemma P_into_stream R c l a :
  P R (into_stream c) l a (3 ^ content_size c) (3 ^ content_size c).
Proof.
  assert (H0 : forall n, 1 <= 3 ^ n) by (intros n; pose proof (Nat.pow_nonzero 3 n); lia).
  assert (H1 : forall n, n <= 3 ^ n)
    by (intros n; pose proof (Nat.pow_gt_lin_r 3 n); lia).
  assert (HP : P R (into_stream c) l 0 (3 ^ content_size c) (3 ^ content_size c)).
  { revert c. fix IH 1. intros [evs|dd|v|s|z|evs stop|[c|e]]; cbn [into_stream content_size].
    - apply P_template; [rewrite Nat.sub_0_r; apply H1|apply H0].
    - apply P_content; cbn; lia.
    - apply P_content; cbn; lia.
    - apply P_content; cbn; lia.
    - apply P_content; cbn; lia.
    - apply P_user; [apply H1|apply H0].
    - eapply P_fallible_start; [apply IH|lia| |];
        rewrite Nat.pow_succ_r'; specialize (H0 (content_size c)); lia.
    - apply P_fallible_err. cbn. lia. }
  eapply P_mono; [exact HP|lia..].
Qed.

(** ** Growth *)

Lemma growth_above q d : d < growth q d.
Proof.
  assert (Hl : forall g n d, (forall d, d < g d) -> d < list_growth g n d).
  { intros g n d0 Hg. revert d0. induction n as [|n IH]; intros d0; cbn [list_growth]; [lia|].
    specialize (Hg d0). lia. }
  destruct q as [|q]; cbn [growth]; [lia|]. apply Hl. intros x. unfold op_growth. lia.
Qed.

(** Programs of size [q] grow streams by [growth q]. *)
Definition Grows (q : nat) : Prop := forall p, Sized q p ->
  (forall d, calls p <= growth q d) /\
  forall R h s l a b d h' s', Inv R h -> P R s l a b d -> Based R l a ->
    build p h s = Done h' s' ->
    exists R', Move zero R R' h h' /\
      P R' s' l (growth q d * a) (growth q d * (b + 1)) (growth q d).

Definition OpSized (q : nat) (o : op) : Prop :=
  (forall p, Sub o p -> Sized q p) /\
  (forall c, op_content o = Some c -> content_size c <= S q) /\
  items o <= S q /\
  (forall f events result, op_function o = Some f -> f events = inl result ->
     length result <= S q * (length events + 1)).

Lemma pow_size c q : content_size c <= S q -> 3 ^ content_size c <= 3 ^ S q.
Proof. intros H. apply Nat.pow_le_mono_r; lia. Qed.

Section Op.
  Context (q : nat) (HG : Grows q).
  Let f := growth q.

  Lemma build_content_pot b c R h s d h' s' :
    CB q b -> Inv R h -> is_Some (R !! c) -> P R s c 4 0 d ->
    build_content b h s = Done h' s' ->
    let G := content_growth f q d in
    (match b with CBUser p => calls p | _ => 1 end) <= G /\
    exists R', Move zero R R' h h' /\ P R' s' c G G G.
  Proof.
    intros HC HI Hc HP E G.
    assert (HB : Based R c 4) by (right; exact Hc).
    pose proof (growth_above q d) as Hfd. pose proof (growth_above q 1) as Hf1.
    pose proof (growth_above q (d + 2)) as Hfd2. fold f in Hfd, Hf1, Hfd2.
    assert (HGd : G = 4 * f d + 40 * (f (d + 2) + 1) + 4 * (3 + S q * (5 * f 1 + 5)) +
                      4 * 3 ^ S q + d + 30) by reflexivity.
    clearbody G.
    destruct b as [p| |n|n|n|direct m bd|direct m p|bs]; cbn [build_content CB] in *.
    - destruct (HG p HC) as [Hk Hb]. split; [specialize (Hk d); fold f in Hk; lia|].
      destruct (Hb _ _ _ _ _ _ _ _ _ HI HP HB E) as (R' & HM & HP').
      exists R'. split; [exact HM|]. eapply P_mono; [exact HP'| | |]; fold f; lia.
    - injection E as <- <-. split; [lia|]. exists R. split; [apply move_refl, HI|].
      eapply P_remove; [exact HP|lia..].
    - destruct HC as (ct & -> & Hs). apply pow_size in Hs. injection E as <- <-. split; [lia|].
      exists R. split; [apply move_refl, HI|]. unfold replace_new, prepend_new.
      eapply P_combine_first; [apply (P_into_stream _ _ _ 0)|eapply P_remove; [exact HP|..]|..];
        try apply Nat.le_refl; lia.
    - destruct HC as (ct & -> & Hs). apply pow_size in Hs. injection E as <- <-. split; [lia|].
      exists R. split; [apply move_refl, HI|]. unfold append_new.
      eapply P_combine_first; [exact HP|apply (P_into_stream _ _ _ 0)|lia..].
    - destruct HC as (ct & -> & Hs). apply pow_size in Hs. injection E as <- <-. split; [lia|].
      exists R. split; [apply move_refl, HI|]. unfold prepend_new.
      eapply P_combine_first; [apply (P_into_stream _ _ _ 0)|exact HP|lia..].
    - injection E as <- <-. split; [lia|].
      destruct (alloc R h s c 4 0 d HI HP HB) as [HM Hl].
      eexists. split; [exact HM|].
      eapply P_select_scan; [exact Hl|exact HC|apply Nat.le_refl|fold f; lia..].
    - injection E as <- <-. split; [lia|].
      destruct (alloc R h s c 4 0 d HI HP HB) as [HM Hl].
      eexists. split; [exact HM|].
      eapply P_once_scan; [exact Hl|exact HC|apply Nat.le_refl|fold f; lia..].
    - destruct HC as [Hn HC]. injection E as <- <-. split; [lia|].
      exists R. split; [apply move_refl, HI|].
      pose proof (mulr _ _ (5 * f 1 + 5) Hn) as Hm.
      eapply P_repeat_collect; [exact HP|exact HC|apply Nat.le_refl|fold f; lia..].
  Qed.

  Lemma build_attr_pot R h s name c l a b d h' s' :
    P R s l a b d -> attr_new h s name c = Done h' s' -> h' = h /\ P R s' l (4 * a) (4 * b + 3) (d + 3).
  Proof.
    intros HP. unfold attr_new, fallible_new. destruct name as [n|e].
    - destruct (c n) as [cmd|]; [|discriminate]. intros [= <- <-]. split; [reflexivity|].
      eapply P_fallible_start; [eapply P_attr_start; [exact HP|apply Nat.le_refl..]|lia..].
    - intros [= <- <-]. split; [reflexivity|]. apply P_fallible_err. lia.
  Qed.

  Lemma build_op_pot o R h s l a b d h' s' :
    OpSized q o -> Inv R h -> P R s l a b d -> Based R l a ->
    build_op o h s = Done h' s' ->
    let C := op_growth f q d in
    exists R', Move zero R R' h h' /\ P R' s' l (C * a) (C * (b + 1)) C.
  Proof.
    intros (HS & HC & HN & HF) HI HP HB E C.
    pose proof (growth_above q d) as Hfd. pose proof (growth_above q 1) as Hf1.
    pose proof (growth_above q (d + 2)) as Hfd2. fold f in Hfd, Hf1, Hfd2.
    set (G := content_growth f q (d + 7)) in *.
    assert (HCd : C = 100 * (f d + f (d + 2) + S q * (f 1 + 1) + G + 3 ^ S q + S q + d + 10))
      by reflexivity.
    assert (HGd : d + 30 <= G) by (unfold G, content_growth; lia).
    assert (HNf : items o * (5 * f 1 + 5) <= S q * (5 * f 1 + 5)) by (apply mulr, HN).
    clearbody C.
    (* a stream with known potential *)
    assert (Hgive : forall R' s' x y z c, Move zero R R' h h' -> P R' s' l x y z ->
      x = c * a -> y <= c * b + C -> c <= C -> z <= C ->
      exists R', Move zero R R' h h' /\ P R' s' l (C * a) (C * (b + 1)) C).
    { intros R' t x y z c HM Ht Hx Hy Hc Hz. exists R'. split; [exact HM|].
      eapply P_mono; [exact Ht| | |exact Hz].
      - subst x. apply mulr, Hc.
      - pose proof (mulr _ _ b Hc). lia. }
    (* the builders of contents *)
    assert (Hcon : forall bd, CB q bd ->
      P R (select_content_new s bd) l ((2 * G + 8) * (8 * a)) ((2 * G + 8) * (8 * b + 8) + 4 * G + 5)
        (G + 1)).
    { intros bd Hbd. eapply (P_contents_open _ _ _ _ _ q G); [exact HP|exact Hbd|apply Nat.le_refl|lia..]. }
    destruct o; cbn [build_op Sub op_content items op_function] in *.
    - (* apply *)
      destruct (HG p (HS _ eq_refl)) as [_ Hb].
      destruct (Hb _ _ _ _ _ _ _ _ _ HI HP HB E) as (R' & HM & HP').
      eapply (Hgive R' _ _ _ _ (f d)); [exact HM|exact HP'|..]; fold f; lia.
    - injection E as <- <-.
      eapply (Hgive R _ _ _ _ 1); [apply move_refl, HI|exact HP|lia..].
    - injection E as <- <-.
      eapply (Hgive R _ _ _ _ 1); [apply move_refl, HI|exact HP|lia..].
    - (* either *)
      destruct (HG p (HS _ eq_refl)) as [_ Hb].
      change (obind (build p h s) (fun h s => Done h (SApplyEither first s)) = Done h' s') in E.
      destruct (build p h s) as [| |h1 s1] eqn:Eb; try discriminate. injection E as <- <-.
      destruct (Hb _ _ _ _ _ _ _ _ _ HI HP HB Eb) as (R' & HM & HP').
      eapply (Hgive R' _ _ _ _ (2 * f d)); [exact HM| | | | |].
      + eapply P_either; [exact HP'|apply Nat.le_refl..].
      + fold f. lia.
      + fold f. lia.
      + lia.
      + fold f. lia.
    - (* as template *)
      injection E as <- <-. match goal with |- context [TACollect s ?g] => rename g into fn end.
      eapply (Hgive R _ _ _ _ (3 + 2 * S q)); [apply move_refl, HI| | | | |].
      + eapply P_apply_collect; [exact HP| |apply Nat.le_refl..].
        intros evs evs' Ef. eapply HF; [reflexivity|exact Ef].
      + reflexivity.
      + lia.
      + lia.
      + lia.
    - (* select *)
      destruct sel as [m|err].
      + injection E as <- <-. destruct (alloc R h s l a b d HI HP HB) as [HM Hl].
        eapply (Hgive _ _ _ _ _ (2 * (10 * f (d + 2) + 10))); [exact HM| | | | |].
        * eapply P_fallible_start; [eapply P_select_scan with (q := q) (d := d + f (d + 2) + 4)|..];
            [exact Hl| |apply Nat.le_refl|apply Nat.le_refl|apply Nat.le_refl|fold f; lia..
            |apply Nat.le_refl|apply Nat.le_refl|apply Nat.le_refl].
          intros k. apply HS. exists k. reflexivity.
        * fold f. lia.
        * fold f. lia.
        * lia.
        * lia.
      + injection E as <- <-. eapply (Hgive R _ 0 0 1 0); [apply move_refl, HI| |lia..].
        apply (P_fallible_err _ _ _ _ 0 1). lia.
    - (* select once *)
      destruct sel as [m|err].
      + injection E as <- <-. destruct (alloc R h s l a b d HI HP HB) as [HM Hl].
        eapply (Hgive _ _ _ _ _ (2 * (10 * f (d + 2) + 10))); [exact HM| | | | |].
        * eapply P_fallible_start; [eapply P_once_scan with (q := q) (d := d + f (d + 2) + 4)|..];
            [exact Hl| |apply Nat.le_refl|apply Nat.le_refl|apply Nat.le_refl|fold f; lia..
            |apply Nat.le_refl|apply Nat.le_refl|apply Nat.le_refl].
          apply HS. reflexivity.
        * fold f. lia.
        * fold f. lia.
        * lia.
        * lia.
      + injection E as <- <-. eapply (Hgive R _ 0 0 1 0); [apply move_refl, HI| |lia..].
        apply (P_fallible_err _ _ _ _ 0 1). lia.
    - (* remove *)
      injection E as <- <-. eapply (Hgive R _ _ _ _ 2); [apply move_refl, HI| |reflexivity|..].
      + eapply P_remove; [exact HP|apply Nat.le_refl..].
      + lia.
      + lia.
      + lia.
    - (* prepend *)
      pose proof (pow_size _ _ (HC _ eq_refl)) as Hs. injection E as <- <-.
      eapply (Hgive R _ (3 * a) (3 * b + 4 * 3 ^ S q + 3) (d + 3 ^ S q + 2) 3);
        [apply move_refl, HI| |lia..].
      eapply P_combine_first; [apply (P_into_stream _ _ _ 0)|exact HP|lia..].
    - (* append *)
      pose proof (pow_size _ _ (HC _ eq_refl)) as Hs. injection E as <- <-.
      eapply (Hgive R _ (3 * a) (3 * b + 3 * 3 ^ S q + d + 3) (d + 3 ^ S q + 2) 3);
        [apply move_refl, HI| |lia..].
      eapply P_combine_first; [exact HP|apply (P_into_stream _ _ _ 0)|lia..].
    - (* replace *)
      pose proof (pow_size _ _ (HC _ eq_refl)) as Hs. injection E as <- <-.
      eapply (Hgive R _ (6 * a) (6 * b + 4 * 3 ^ S q + 3) (d + 3 ^ S q + 4) 6);
        [apply move_refl, HI| |lia..].
      eapply P_combine_first;
        [apply (P_into_stream _ _ _ 0)|eapply P_remove; [exact HP|apply Nat.le_refl..]|lia..].
    - (* repeat *)
      injection E as <- <-.
      eapply (Hgive R _ _ _ _ (3 + length bs * (5 * f 1 + 5))); [apply move_refl, HI| | | | |].
      + eapply P_repeat_collect with (q := q) (d := d + f 1 + 4);
          [exact HP|exact HS|apply Nat.le_refl|apply Nat.le_refl|apply Nat.le_refl|fold f; lia..].
      + reflexivity.
      + fold f. lia.
      + lia.
      + lia.
    - (* repeat or else *)
      injection E as <- <-.
      eapply (Hgive R _ ((2 * f d + 2 * (3 + length bs * (5 * f 1 + 5))) * a)
                ((2 * f d + 2 * (3 + length bs * (5 * f 1 + 5))) * b + 3 * f d + 1 +
                 2 * (length bs * (5 * f 1 + 5) + d + 3) + 1) (f d + d + f 1 + 10)
                (2 * f d + 2 * (3 + length bs * (5 * f 1 + 5)))); [apply move_refl, HI| |lia..].
      eapply P_roe_start with (q := q); [exact HP|apply HS; right; reflexivity| |fold f..].
      + eapply P_repeat_collect with (q := q) (d := d + f 1 + 4);
          [exact HP|intros p' Hp'; apply HS; left; exact Hp'|apply Nat.le_refl|apply Nat.le_refl
          |apply Nat.le_refl|fold f; lia..].
      + lia.
      + lia.
      + lia.
      + fold f. lia.
      + fold f. lia.
      + lia.
    - (* contents *)
      injection E as <- <-.
      eapply (Hgive R _ _ _ _ ((2 * G + 8) * 8)); [apply move_refl, HI|apply Hcon|lia..].
      cbn [CB]. apply HS. reflexivity.
    - destruct sel as [m|err]; injection E as <- <-.
      + eapply (Hgive R _ _ _ _ (2 * ((2 * G + 8) * 8))); [apply move_refl, HI| |..].
        * eapply P_fallible_start; [apply Hcon|apply Nat.le_refl..].
          intros k. apply HS. exists k. reflexivity.
        * lia.
        * lia.
        * lia.
        * lia.
      + eapply (Hgive R _ 0 0 1 0); [apply move_refl, HI| |lia..].
        apply (P_fallible_err _ _ _ _ 0 1). lia.
    - destruct sel as [m|err]; injection E as <- <-.
      + eapply (Hgive R _ _ _ _ (2 * ((2 * G + 8) * 8))); [apply move_refl, HI| |..].
        * eapply P_fallible_start; [apply Hcon|apply Nat.le_refl..].
          cbn [CB]. apply HS. reflexivity.
        * lia.
        * lia.
        * lia.
        * lia.
      + eapply (Hgive R _ 0 0 1 0); [apply move_refl, HI| |lia..].
        apply (P_fallible_err _ _ _ _ 0 1). lia.
    - injection E as <- <-.
      eapply (Hgive R _ _ _ _ ((2 * G + 8) * 8)); [apply move_refl, HI|apply Hcon; exact I|lia..].
    - injection E as <- <-.
      eapply (Hgive R _ _ _ _ ((2 * G + 8) * 8)); [apply move_refl, HI|apply Hcon|lia..].
      eexists. split; [reflexivity|]. apply HC. reflexivity.
    - injection E as <- <-.
      eapply (Hgive R _ _ _ _ ((2 * G + 8) * 8)); [apply move_refl, HI|apply Hcon|lia..].
      eexists. split; [reflexivity|]. apply HC. reflexivity.
    - injection E as <- <-.
      eapply (Hgive R _ _ _ _ ((2 * G + 8) * 8)); [apply move_refl, HI|apply Hcon|lia..].
      eexists. split; [reflexivity|]. apply HC. reflexivity.
    - injection E as <- <-.
      eapply (Hgive R _ _ _ _ ((2 * G + 8) * 8)); [apply move_refl, HI|apply Hcon|lia..].
      split; [exact HN|exact HS].
    - (* repeat contents or else *)
      injection E as <- <-.
      eapply (Hgive R _ ((2 * f d + 2 * ((2 * G + 8) * 8)) * a)
                ((2 * f d + 2 * ((2 * G + 8) * 8)) * b + 3 * f d + 1 +
                 2 * ((2 * G + 8) * 8 + 4 * G + 5) + 1) (f d + G + 10)
                (2 * f d + 2 * ((2 * G + 8) * 8))); [apply move_refl, HI| |lia..].
      eapply P_roe_start with (q := q); [exact HP|apply HS; right; reflexivity| |fold f..].
      + apply Hcon. split; [exact HN|]. intros p' Hp'. apply HS. left. exact Hp'.
      + lia.
      + lia.
      + lia.
      + lia.
      + lia.
      + lia.
    - destruct (build_attr_pot _ _ _ _ _ _ _ _ _ _ _ HP E) as [-> HP'].
      eapply (Hgive R _ _ _ _ 4); [apply move_refl, HI|exact HP'|lia..].
    - destruct (build_attr_pot _ _ _ _ _ _ _ _ _ _ _ HP E) as [-> HP'].
      eapply (Hgive R _ _ _ _ 4); [apply move_refl, HI|exact HP'|lia..].
    - destruct (build_attr_pot _ _ _ _ _ _ _ _ _ _ _ HP E) as [-> HP'].
      eapply (Hgive R _ _ _ _ 4); [apply move_refl, HI|exact HP'|lia..].
    - destruct (build_attr_pot _ _ _ _ _ _ _ _ _ _ _ HP E) as [-> HP'].
      eapply (Hgive R _ _ _ _ 4); [apply move_refl, HI|exact HP'|lia..].
    - destruct (build_attr_pot _ _ _ _ _ _ _ _ _ _ _ HP E) as [-> HP'].
      eapply (Hgive R _ _ _ _ 4); [apply move_refl, HI|exact HP'|lia..].
    - destruct (build_attr_pot _ _ _ _ _ _ _ _ _ _ _ HP E) as [-> HP'].
      eapply (Hgive R _ _ _ _ 4); [apply move_refl, HI|exact HP'|lia..].
    - destruct (build_attr_pot _ _ _ _ _ _ _ _ _ _ _ HP E) as [-> HP'].
      eapply (Hgive R _ _ _ _ 4); [apply move_refl, HI|exact HP'|lia..].
    - destruct (static_ident _) as [id|]; [|discriminate]. injection E as <- <-.
      eapply (Hgive R _ _ _ _ 2); [apply move_refl, HI| |reflexivity|..].
      + eapply P_attr_start; [exact HP|apply Nat.le_refl..].
      + lia.
      + lia.
      + lia.
    - destruct (build_attr_pot _ _ _ _ _ _ _ _ _ _ _ HP E) as [-> HP'].
      eapply (Hgive R _ _ _ _ 4); [apply move_refl, HI|exact HP'|lia..].
  Qed.

  Lemma calls_op_pot o d : OpSized q o -> calls_op o <= op_growth f q d.
  Proof.
    intros (HS & _). unfold op_growth.
    assert (H1 : forall p, Sized q p -> calls p <= f d) by (intros p Hp; apply HG, Hp).
    destruct o; cbn [calls_op Sub] in *; try lia.
    - specialize (H1 _ (HS _ eq_refl)).
      match goal with |- _ <= ?x => change (S (calls p) <= x) end. lia.
    - specialize (H1 _ (HS _ eq_refl)).
      match goal with |- _ <= ?x => change (S (calls p) <= x) end. lia.
  Qed.
End Op.

Lemma grows q : Grows q.
Proof.
  induction q as [|q IH].
  - intros p Hp. cbn [Sized] in Hp. subst p. split; [cbn; lia|].
    intros R h s l a b d h' s' HI HP HB [= <- <-]. exists R. split; [apply move_refl, HI|].
    eapply P_mono; [exact HP|cbn [growth]; lia..].
  - intros p [Hlen Hp].
    assert (Hop : forall o, In o p -> OpSized q o) by (intros o Ho; apply Hp, Ho).
    cbn [growth]. set (g := op_growth (growth q) q).
    clear Hp. revert Hlen Hop. generalize (S q) as n. induction p as [|o p IHp]; intros n Hlen Hop.
    + assert (Hl : forall n d, S d <= list_growth g n d).
      { clear. induction n as [|n IH]; intros d; cbn [list_growth]; [lia|].
        assert (d < g d) by (unfold g, op_growth; lia). lia. }
      split; [cbn; lia|]. intros R h s l a b d h' s' HI HP HB [= <- <-].
      exists R. split; [apply move_refl, HI|]. specialize (Hl n d).
      eapply P_mono; [exact HP|..]; [nia|nia|lia].
    + cbn [length] in Hlen. destruct n as [|n]; [lia|].
      destruct (IHp n ltac:(lia) (fun o Ho => Hop o (or_intror Ho))) as [Hk Hb].
      assert (Ho : OpSized q o) by (apply Hop; left; reflexivity).
      split.
      * intros d. cbn [calls list_growth]. pose proof (calls_op_pot q IH o d Ho) as H1.
        fold g in H1. specialize (Hk (g d)). nia.
      * intros R h s l a b d h' s' HI HP HB E. cbn [build] in E.
        destruct (build_op o h s) as [| |h1 s1] eqn:E1; try discriminate. cbn [obind] in E.
        destruct (build_op_pot q IH o _ _ _ _ _ _ _ _ _ Ho HI HP HB E1) as (R1 & HM1 & HP1).
        fold g in HP1.
        destruct (Hb _ _ _ _ _ _ _ _ _ (mv_inv _ _ _ _ _ HM1) HP1
                    (based_mul _ _ _ _ (based_moved _ _ _ _ _ (mv_moved _ _ _ _ _ HM1) HB)) E)
          as (R2 & HM2 & HP2).
        exists R2. split; [eapply move_zero; eassumption|].
        cbn [list_growth]. set (G := list_growth g n (g d)) in *. set (C := g d) in *.
        eapply P_mono; [exact HP2|..]; nia.
Qed.
