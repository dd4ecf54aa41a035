(** Proofs for C63: the cost of each call. *)
From Coq Require Import List Lia PeanoNat.
From stdpp Require Import gmap.
From Verif Require Import Text Event Input Parse Selector Machine.
From Verif Require Import SpecTransform SpecWork MachineCost StreamBase WorkProofs2 WorkProofs3.
Local Open Scope nat_scope.

(** ** Triples *)

Definition Ok {A} (o : cout A) (Q : heap -> A -> nat -> Prop) : Prop :=
  match o with (Done h a, k) => Q h a k | _ => True end.

Lemma ok_tick {A} (o : cout A) (Q : heap -> A -> nat -> Prop) :
  Ok o (fun h a k => Q h a (S k)) -> Ok (tick o) Q.
Proof. destruct o as [[| |h a] k]; cbn; auto. Qed.
Lemma ok_bind {A B} (o : cout A) (f : heap -> A -> cout B) Q1 Q :
  Ok o Q1 -> (forall h a k, Q1 h a k -> Ok (f h a) (fun h' b k' => Q h' b (k + k'))) ->
  Ok (cbind o f) Q.
Proof.
  destruct o as [[| |h a] k]; cbn; auto. intros H1 H2. specialize (H2 h a k H1).
  destruct (f h a) as [[| |h' b] k']; cbn in *; auto.
Qed.
Lemma ok_weaken {A} (o : cout A) (Q1 Q : heap -> A -> nat -> Prop) :
  Ok o Q1 -> (forall h a k, Q1 h a k -> Q h a k) -> Ok o Q.
Proof. destruct o as [[| |h a] k]; cbn; auto. Qed.
Lemma ok_on_ok o dead f Q1 (Q : heap -> strm * stream_result -> nat -> Prop) :
  Ok o Q1 ->
  (forall h s r k, Q1 h (s, inl r) k -> Ok (f h s r) (fun h' x k' => Q h' x (k + k'))) ->
  (forall h s e k, Q1 h (s, inr e) k -> Q h (dead s, inr e) k) ->
  Ok (on_ok_c o dead f) Q.
Proof.
  intros H1 H2 H3. eapply ok_bind; [exact H1|]. intros h [s [r|e]] k Hk; [apply H2, Hk|].
  cbn. rewrite Nat.add_0_r. apply H3, Hk.
Qed.

(** ** The cost of a call *)

(** A call with the result [r] costs [k], of which [j] is paid from the potential. *)
Definition cost_ne (r : stream_result) (k j d : nat) : Prop :=
  match r with inl (Some _) => k <= j /\ 1 <= j | _ => k <= j + d end.
Definition cost_sk (r : stream_result) (k j d : nat) : Prop :=
  match r with inl (Some _) => k <= 2 * j /\ 1 <= j | _ => k <= 2 * j + d + 1 end.
Definition cost_peek (r : stream_result) (k j d : nat) : Prop :=
  match r with inl (Some _) => k <= j + 1 | _ => k <= j + d end.

Definition Calls (C : stream_result -> nat -> nat -> nat -> Prop)
    (R : pots) (h : heap) (l : loc) (a b d : nat)
    (h' : heap) (x : strm * stream_result) (k : nat) : Prop :=
  exists del R' b' j, Move del R R' h h' /\ P R' (fst x) l a b' d /\
    j + b' <= b + a * del l /\ C (snd x) k j d.

(** ** Cells *)

Definition at_loc (c : loc) (n : nat) : loc -> nat := fun l => if decide (l = c) then n else 0.

Lemma consume R c l a b d b' : R !! c = Some (l, a, b, d) -> b' <= b -> a = 0 \/ l <> c ->
  exists R', Moved (at_loc c (b - b')) R R' /\ R' !! c = Some (l, a, b', d) /\
    (forall x, is_Some (R' !! x) <-> is_Some (R !! x)).
Proof.
  intros Hc Hb Hl.
  set (g := fun e : loc * nat * nat * nat =>
              match e with (l0, a0, b0, d0) =>
                (l0, a0, if decide (l0 = c) then b0 + a0 * (b - b') else b0, d0) end).
  exists (<[c := (l, a, b', d)]> (g <$> R)). split; [|split; [apply lookup_insert|]].
  - intros l1 l' a1 b1 d1 H1. unfold at_loc. destruct (decide (l1 = c)) as [->|Hn].
    + rewrite Hc in H1. injection H1 as <- <- <- <-. exists b'. split; [apply lookup_insert|].
      destruct (decide (l = c)) as [->|Hn']; [|lia]. destruct Hl as [->|[]]; [lia|reflexivity].
    + exists (if decide (l' = c) then b1 + a1 * (b - b') else b1). split.
      * rewrite lookup_insert_ne by congruence. rewrite lookup_fmap, H1. reflexivity.
      * destruct (decide (l' = c)); lia.
  - intros x. destruct (decide (x = c)) as [->|Hn].
    + rewrite lookup_insert, Hc. split; eauto.
    + rewrite lookup_insert_ne by congruence. rewrite lookup_fmap.
      destruct (R !! x); cbn; split; intros [y Hy]; eauto; discriminate.
Qed.

Lemma with_cell_pot C f c l al bl dl R h :
  (forall R h s l a b d, Inv R h -> P R s l a b d -> Based R l a ->
     Ok (f h s) (Calls C R h l a b d)) ->
  Inv R h -> R !! c = Some (l, al, bl, dl) ->
  Ok (with_cell_c h c f) (fun h' x k => fst x = SShared c /\
    exists del R' j, Move del R R' h h' /\ j <= del c /\ C (snd x) k j dl).
Proof.
  intros Hf HI Hc. unfold with_cell_c. destruct (h !! c) as [[s|]|] eqn:Eh; [|exact I..].
  destruct (inv_cell _ _ HI _ _ Eh) as (l0 & a0 & b0 & d0 & E & HP).
  rewrite Hc in E. injection E as <- <- <- <-.
  destruct (inv_based _ _ HI _ _ _ _ _ Hc) as [HB Hne].
  assert (HI1 : Inv R (<[c := Borrowed]> h)).
  { split.
    - intros x. destruct (decide (x = c)) as [->|Hn]; [rewrite lookup_insert; discriminate|].
      rewrite lookup_insert_ne by congruence. apply HI.
    - intros x t. destruct (decide (x = c)) as [->|Hn]; [rewrite lookup_insert; discriminate|].
      rewrite lookup_insert_ne by congruence. apply HI.
    - apply HI. }
  eapply ok_bind; [apply (Hf R _ s l al bl dl HI1 HP HB)|].
  intros h2 [s' r] k (del & R2 & b' & j & HM & HP' & Hj & HC). cbn [fst snd] in *.
  cbn. split; [reflexivity|]. rewrite Nat.add_0_r.
  destruct HM as [HM HI2 Hbor].
  destruct (Hbor c) as [Hdc H2c]; [apply lookup_insert|].
  destruct (HM _ _ _ _ _ Hc) as (b2 & Hc2 & E2). rewrite Hdc in E2.
  destruct (consume R2 c l al b2 dl b' Hc2 ltac:(lia) Hne) as (R3 & HM3 & Hc3 & Hdom).
  exists (plus del (at_loc c (b2 - b'))), R3, j.
  split; [|split; [unfold at_loc; rewrite decide_True by reflexivity; lia|exact HC]].
  split.
  - eapply moved_trans; eassumption.
  - split.
    + intros x. destruct (decide (x = c)) as [->|Hn]; [rewrite lookup_insert; discriminate|].
      rewrite lookup_insert_ne by congruence. intros Hx. apply HI2 in Hx.
      destruct (R3 !! x) eqn:E3; [|reflexivity].
      destruct (proj1 (Hdom x)) as [y Hy]; [rewrite E3; eauto|congruence].
    + intros x t. destruct (decide (x = c)) as [->|Hn].
      * rewrite lookup_insert. intros [= <-]. exists l, al, b', dl. split; [exact Hc3|].
        pose proof (P_moved _ _ _ HM3 _ _ _ _ _ HP') as HP3.
        eapply P_mono; [exact HP3|lia| |lia]. unfold at_loc.
        destruct (decide (l = c)) as [->|]; [|lia].
        destruct Hne as [->|[]]; [lia|reflexivity].
      * rewrite lookup_insert_ne by congruence. intros Hx.
        destruct (inv_cell _ _ HI2 _ _ Hx) as (l1 & a1 & b1 & d1 & E1 & HP1).
        destruct (HM3 _ _ _ _ _ E1) as (b3 & E3 & Eb). exists l1, a1, b3, d1.
        split; [exact E3|]. pose proof (P_moved _ _ _ HM3 _ _ _ _ _ HP1) as HP3.
        eapply P_mono; [exact HP3|lia| |lia]. unfold at_loc in *.
        rewrite (decide_False (P := x = c)) in Eb by exact Hn. lia.
    + intros x l1 a1 b1 d1 Hx.
      destruct (proj1 (Hdom x)) as [[[[l1' a1'] b1'] d1'] Hy]; [rewrite Hx; eauto|].
      destruct (HM3 _ _ _ _ _ Hy) as (b3 & E3 & _). rewrite Hx in E3. injection E3 as <- <- <- <-.
      destruct (inv_based _ _ HI2 _ _ _ _ _ Hy) as [H1 H2].
      split; [eapply based_moved; eassumption|exact H2].
  - intros x Hx. assert (Hn : x <> c) by (intros ->; congruence).
    destruct (Hbor x) as [Hd Hx2]; [rewrite lookup_insert_ne by congruence; exact Hx|].
    split.
    + unfold at_loc. rewrite decide_False by exact Hn. lia.
    + rewrite lookup_insert_ne by congruence. exact Hx2.
Qed.

(** ** One step *)

Record Fine (e : engine_c) : Prop :=
  { f_ne : forall R h s l a b d, Inv R h -> P R s l a b d -> Based R l a ->
      Ok (ne_c e h s) (Calls cost_ne R h l a b d);
    f_sk : forall R h s l a b d, Inv R h -> P R s l a b d -> Based R l a ->
      Ok (sk_c e h s) (Calls cost_sk R h l a b d);
    f_dr : forall R h s l a b d, Inv R h -> P R s l a b d -> Based R l a ->
      Ok (dr_c e h s) (fun h' x k => exists s', fst x = SRemove s' /\
        Calls cost_sk R h l a b d h' (s', snd x) k /\ forall ev, snd x <> inl (Some ev));
    f_co : forall R h s l a b d acc, Inv R h -> P R s l a b d -> Based R l a ->
      Ok (co_c e h s acc) (fun h' r k => exists del R' j, Move del R R' h h' /\
        j <= b + a * del l /\ k <= 3 * j + d + 2 /\
        match r with inl evs => length evs <= length acc + j | inr _ => True end) }.


Lemma ok_ret {A} h (x : A) (Q : heap -> A -> nat -> Prop) : Q h x 0 -> Ok (ret_c h x) Q.
Proof. exact (fun H => H). Qed.

Lemma calls_now (C : stream_result -> nat -> nat -> nat -> Prop) R h s' r l a b d b' j n :
  Inv R h -> P R s' l a b' d -> j + b' <= b -> C r n j d ->
  Calls C R h l a b d h (s', r) n.
Proof.
  intros HI HP Hj HC. exists zero, R, b', j. split; [apply move_refl, HI|].
  split; [exact HP|]. split; [cbv beta; lia|exact HC].
Qed.
Lemma calls_done (C : stream_result -> nat -> nat -> nat -> Prop) del R R' h h2 s' r l a b d b' j n :
  Move del R R' h h2 -> P R' s' l a b' d -> j + b' <= b + a * del l -> C r n j d ->
  Calls C R h l a b d h2 (s', r) n.
Proof. intros HM HP Hj HC. exists del, R', b', j. auto. Qed.

(** Closes a step that gives [r], with the potential [b'] left and [j] paid. *)
Ltac now_ b' j :=
  apply ok_ret; cbv beta; eapply (calls_now _ _ _ _ _ _ _ _ _ b' j);
  [assumption| |try (cbn [cost_ne cost_peek cost_sk]; lia)..].
Ltac done_ b' j :=
  try (apply ok_ret; cbv beta);
  eapply (calls_done _ _ _ _ _ _ _ _ _ _ _ _ b' j);
  [eassumption| |try (cbn [cost_ne cost_peek cost_sk]; first [lia|nia])..].
(** After a call of another stream. *)
Ltac called :=
  let h2 := fresh "h2" in let s2 := fresh "s2" in let k := fresh "k" in
  let del := fresh "del" in let R2 := fresh "R2" in let y2 := fresh "y2" in let j := fresh "j" in
  let HM := fresh "HM" in let HP2 := fresh "HP2" in let Hj := fresh "Hj" in let HC := fresh "HC" in
  intros h2 s2 r k (del & R2 & y2 & j & HM & HP2 & Hj & HC);
  cbn [fst snd] in HP2, HC.

Lemma ok_pass o dead cont R h l x y z a b d :
  Ok o (Calls cost_ne R h l x y z) -> 2 * x <= a -> 2 * y <= b -> z + 1 <= d ->
  (forall R', P R' dead l a 0 d) ->
  (forall R' s' y', P R' s' l x y' z -> P R' (cont s') l a (2 * y') d) ->
  Ok (passthrough_c o dead cont) (fun h' x k => Calls cost_ne R h l a b d h' x (S k)).
Proof.
  intros Ho Hx Hy Hz Hd Hc. eapply ok_on_ok; [exact Ho|called|called]; pose proof (mulr _ _ (del l) Hx).
  - destruct r as [ev|]; cbn [cost_ne] in HC.
    + done_ (2 * y2) (2 * j). apply Hc, HP2.
    + done_ 0 j. apply Hd.
  - cbn [cost_ne] in HC. done_ 0 j. apply Hd.
Qed.
Lemma ok_pass_sk o dead cont R h l x y z a b d :
  Ok o (Calls cost_sk R h l x y z) -> 3 * x <= a -> 3 * y <= b -> z + 2 <= d ->
  (forall R', P R' dead l a 0 d) ->
  (forall R' s' y', P R' s' l x y' z -> P R' (cont s') l a (3 * y') d) ->
  Ok (passthrough_c o dead cont) (fun h' x k => Calls cost_ne R h l a b d h' x (S k)).
Proof.
  intros Ho Hx Hy Hz Hd Hc. eapply ok_on_ok; [exact Ho|called|called]; pose proof (mulr _ _ (del l) Hx).
  - destruct r as [ev|]; cbn [cost_sk] in HC.
    + done_ (3 * y2) (3 * j). apply Hc, HP2.
    + done_ 0 (2 * j). apply Hd.
  - cbn [cost_sk] in HC. done_ 0 (2 * j). apply Hd.
Qed.

Section Step.
  Context (e : engine_c) (He : Fine e).

  (** The source of a selection. *)
  Lemma source_ne R h c l al bl dl : Inv R h -> R !! c = Some (l, al, bl, dl) ->
    Ok (ne_c e h (SShared c)) (Calls cost_ne R h c 2 0 (dl + 1)).
  Proof.
    intros HI Hc. apply He; [exact HI| |right; rewrite Hc; eauto].
    eapply P_shared; [exact Hc|lia..].
  Qed.
  Lemma source_sk R h c l al bl dl : Inv R h -> R !! c = Some (l, al, bl, dl) ->
    Ok (sk_c e h (SShared c)) (Calls cost_sk R h c 2 0 (dl + 1)).
  Proof.
    intros HI Hc. apply He; [exact HI| |right; rewrite Hc; eauto].
    eapply P_shared; [exact Hc|lia..].
  Qed.

  Lemma peek_pot R h s l a b d : Inv R h -> P R s l a b d -> Based R l a ->
    Ok (peek_c e h s) (Calls cost_peek R h l a b d).
  Proof.
    intros HI HP HB. unfold peek_c. apply ok_tick. destruct s; try exact I.
    destruct buffered as [ev|]; inversion HP; subst.
    - now_ b 0. exact HP.
    - eapply ok_on_ok; [apply He; [exact HI|eassumption|eapply based_le; [exact HB|lia]]|called|called];
        prods (del l).
      + destruct r as [ev|]; cbn [cost_sk] in HC.
        * done_ (4 * y2 + 1) (4 * j - 1). eapply P_peek; [eassumption|lia..].
        * done_ (4 * y2) (4 * j). eapply P_peek_none; [eassumption|lia..].
      + cbn [cost_sk] in HC. done_ (4 * y2) (4 * j). eapply P_peek_none; [eassumption|lia..].
  Qed.
End Step.
