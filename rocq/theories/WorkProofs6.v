(** Proofs for C63: the cost of the steps of selections and repetitions; the whole engine. *)
From Coq Require Import List Lia PeanoNat.
From stdpp Require Import gmap.
From Verif Require Import Text Event Input Parse Selector Machine.
From Verif Require Import SpecTransform SpecWork MachineCost StreamBase.
From Verif Require Import WorkProofs2 WorkProofs3 WorkProofs4 WorkProofs5.
Local Open Scope nat_scope.

Section Step.
  Context (e : engine_c) (He : Fine e).

  Ltac based HB := eapply based_le; [exact HB|nia].
  Ltac call_ne HI HB := eapply (f_ne e He); [exact HI|eassumption|based HB].
  Ltac call_sk HI HB := eapply (f_sk e He); [exact HI|eassumption|based HB].

  Lemma shared_step c : step_ok e (SShared c).
  Proof.
    intros R h l a b d HI HP HB. inversion HP; subst. cbn [ne_body_c].
    eapply ok_weaken; [eapply (with_cell_pot cost_ne); [apply He|exact HI|eassumption]|].
    intros h2 [s2 r] k (Es & del & R2 & j & HM & Hj & HC). cbn [fst snd] in *. subst s2.
    match goal with H : R !! l = Some _ |- _ =>
      destruct (mv_moved _ _ _ _ _ HM _ _ _ _ _ H) as (b2 & Hl2 & _) end.
    assert (2 * del l <= a * del l) by (apply mulr; assumption).
    destruct r as [[ev|]|err]; cbn [cost_ne] in HC.
    - done_ b (2 * j). eapply P_shared; eassumption.
    - done_ b (2 * j). eapply P_shared; eassumption.
    - done_ b (2 * j). eapply P_shared; eassumption.
  Qed.

  Lemma remove_step s : step_ok e (SRemove s).
  Proof.
    intros R h l a b d HI HP HB. inversion HP; subst. cbn [ne_body_c].
    eapply ok_weaken; [eapply (f_dr e He); [exact HI|eassumption|based HB]|].
    intros h2 [s2 r] k (s' & Es & (del & R2 & y2 & j & HM & HP2 & Hj & HC) & Hr).
    cbn [fst snd] in *. subst s2. prods (del l).
    destruct r as [[ev|]|err]; cbn [cost_sk] in HC; [destruct (Hr ev); reflexivity|..].
    - done_ (2 * y2) (2 * j). eapply P_remove; [eassumption|lia..].
    - done_ (2 * y2) (2 * j). eapply P_remove; [eassumption|lia..].
  Qed.

  Lemma select_step c m bd n dr st : step_ok e (SSelect c m bd n dr st).
  Proof.
    intros R h l a b d HI HP HB. cbn [ne_body_c].
    destruct st as [[level|level s]|]; inversion HP; subst.
    - eapply ok_on_ok; [eapply source_sk; [exact He|exact HI|eassumption]|called|called];
        (edestruct (sel_moved del R R2 c) as (bl2 & Hc2 & Ha);
          [apply HM|eassumption|eassumption|]); cbn [cost_sk] in HC.
      + destruct r as [ev|]; [|done_ (A * bl2) (2 * j); apply P_select_none; lia].
        assert (Hdel : 1 <= del c) by lia. set (F := growth q (dl + 2)) in *.
        match goal with H : 10 * F + 10 <= A |- _ => pose proof (mulr _ _ (del c) H) as HA end.
        pose proof (mulr 1 (del c) F Hdel) as HF.
        destruct (include dr level && matches m ev).
        * eapply ok_bind.
          { eapply (build_ok q _ R2 _ _ c 4 1 (dl + 2)); [auto|apply HM| |right; rewrite Hc2; eauto].
            eapply P_single_start;
              [eapply (P_shared _ _ _ _ _ _ 2 0 (dl + 1)); [exact Hc2|lia..]|lia..]. }
          intros h3 s3 k3 (Hk3 & R3 & HM3 & HP3). fold F in Hk3, HP3.
          pose proof (move_zero _ _ _ _ _ _ _ HM HM3) as HM'.
          pose proof (zero_moved _ _ _ _ (mv_moved _ _ _ _ _ HM3) Hc2) as Hc3.
          done_ (A * bl2 + 2 * (F * 2) + F + 2) (1 + 4 * del c + F).
          eapply P_select_active; [exact Hc3|eassumption|eassumption|exact HP3|..]; fold F; lia.
        * destruct (adjust level ev) as [level'|err].
          -- done_ (A * bl2) (1 + 4 * del c).
             eapply P_select_scan; [exact Hc2|eassumption|eassumption|..]; fold F; lia.
          -- done_ 0 (2 * j); apply P_select_none; lia.
      + done_ (A * bl2) (2 * j); apply P_select_none; lia.
    - assert (HBc : Based R c x) by (right; eauto).
      eapply ok_on_ok; [eapply (f_ne e He); [exact HI|eassumption|exact HBc]|called|called];
        (edestruct (sel_moved del R R2 c) as (bl2 & Hc2 & Ha);
          [apply HM|eassumption|eassumption|]); cbn [cost_ne] in HC;
        match goal with H : 2 * x <= A |- _ => pose proof (mulr _ _ (del c) H) as HA end.
      + destruct r as [ev|].
        * done_ (A * bl2 + 2 * y2 + z + 2) (2 * j).
          eapply P_select_active; [exact Hc2|eassumption|eassumption|exact HP2|..]; lia.
        * done_ (A * bl2) (1 + j + z).
          eapply P_select_scan; [exact Hc2|eassumption|eassumption|..]; lia.
      + done_ (A * bl2) j. apply P_select_none; lia.
    - now_ 0 0. apply P_select_none; lia.
  Qed.

  Lemma select_once_step c st : step_ok e (SSelectOnce c st).
  Proof.
    intros R h l a b d HI HP HB. cbn [ne_body_c].
    destruct st as [[m p dr level|s|]|]; inversion HP; subst.
    - eapply ok_on_ok; [eapply source_sk; [exact He|exact HI|eassumption]|called|called];
        (edestruct (sel_moved del R R2 c) as (bl2 & Hc2 & Ha);
          [apply HM|eassumption|eassumption|]); cbn [cost_sk] in HC.
      + destruct r as [ev|]; [|done_ (A * bl2) (2 * j); apply P_once_none; lia].
        assert (Hdel : 1 <= del c) by lia. set (F := growth q (dl + 2)) in *.
        match goal with H : 10 * F + 10 <= A |- _ => pose proof (mulr _ _ (del c) H) as HA end.
        pose proof (mulr 1 (del c) F Hdel) as HF.
        destruct (include dr level && matches m ev).
        * eapply ok_bind.
          { eapply (build_ok q _ R2 _ _ c 4 1 (dl + 2)); [auto|apply HM| |right; rewrite Hc2; eauto].
            eapply P_single_start;
              [eapply (P_shared _ _ _ _ _ _ 2 0 (dl + 1)); [exact Hc2|lia..]|lia..]. }
          intros h3 s3 k3 (Hk3 & R3 & HM3 & HP3). fold F in Hk3, HP3.
          pose proof (move_zero _ _ _ _ _ _ _ HM HM3) as HM'.
          pose proof (zero_moved _ _ _ _ (mv_moved _ _ _ _ _ HM3) Hc2) as Hc3.
          done_ (A * bl2 + 2 * (F * 2) + F + 2) (1 + 4 * del c + F).
          eapply (P_once_active _ _ _ _ _ A); [exact Hc3|lia|exact HP3|..]; lia.
        * destruct (adjust level ev) as [level'|err].
          -- done_ (A * bl2) (1 + 4 * del c).
             eapply P_once_scan; [exact Hc2|eassumption|eassumption|..]; fold F; lia.
          -- done_ 0 (2 * j); apply P_once_none; lia.
      + done_ (A * bl2) (2 * j); apply P_once_none; lia.
    - assert (HBc : Based R c x) by (right; eauto).
      eapply ok_on_ok; [eapply (f_ne e He); [exact HI|eassumption|exact HBc]|called|called];
        (edestruct (sel_moved del R R2 c) as (bl2 & Hc2 & Ha);
          [apply HM|eassumption|eassumption|]); cbn [cost_ne] in HC;
        match goal with H : 2 * x <= A |- _ => pose proof (mulr _ _ (del c) H) as HA end.
      + destruct r as [ev|].
        * done_ (A * bl2 + 2 * y2 + z + 2) (2 * j).
          eapply P_once_active; [exact Hc2|eassumption|exact HP2|..]; lia.
        * done_ (A * bl2) (1 + j + z). eapply P_once_pass; [exact Hc2|eassumption|..]; lia.
      + done_ (A * bl2) j. apply P_once_none; lia.
    - eapply ok_on_ok; [eapply source_ne; [exact He|exact HI|eassumption]|called|called];
        (edestruct (sel_moved del R R2 c) as (bl2 & Hc2 & Ha);
          [apply HM|eassumption|eassumption|]); cbn [cost_ne] in HC;
        match goal with H : 4 <= A |- _ => pose proof (mulr _ _ (del c) H) as HA end.
      + destruct r as [ev|].
        * done_ (A * bl2) (4 * del c). eapply P_once_pass; [exact Hc2|eassumption|..]; lia.
        * done_ (A * bl2) j. apply P_once_none; lia.
      + done_ (A * bl2) j. apply P_once_none; lia.
    - now_ 0 0. apply P_once_none; lia.
  Qed.

  Lemma contents_step st : step_ok e (SSelectContent st).
  Proof.
    intros R h l a b d HI HP HB. cbn [ne_body_c].
    destruct st as [[s bd|c s tag|c tag]|]; inversion HP; subst.
    - assert (Hs : P R (SExpand (Some (XStart s))) l (2 * x) (2 * y + 2) (z + 2))
        by (eapply P_expand_start; [eassumption|lia..]).
      assert (HG8 : 8 * (8 * x) <= (2 * G + 8) * (8 * x)) by (apply mulr; lia).
      assert (HGy : 8 * (8 * y + 8) <= (2 * G + 8) * (8 * y + 8)) by (apply mulr; lia).
      eapply ok_on_ok; [eapply (f_sk e He); [exact HI|exact Hs|eapply based_le; [exact HB|lia]]
                       |called|called]; cbn [cost_sk] in HC;
        match goal with H : (2 * G + 8) * (8 * x) <= a |- _ =>
          pose proof (mulr _ _ (del l) H) as Hm end;
        pose proof (mulr _ _ (del l) HG8) as Hm8.
      + destruct r as [[]|];
          try solve [done_ 0 (2 * j); apply P_contents_none; lia];
          try solve [done_ 0 (1 + 2 * j); apply P_contents_none; lia].
        set (h3 := <[_ := _]> h2).
        assert (Hpk : P R2 (SPeek s2 None) l (8 * x) (4 * y2) (z + 4))
          by (eapply P_peek_none; [exact HP2|lia..]).
        assert (HB2 : Based R2 l (8 * x)).
        { eapply based_moved; [apply HM|]. eapply based_le; [exact HB|lia]. }
        destruct (alloc R2 h2 _ l _ _ _ (mv_inv _ _ _ _ _ HM) Hpk HB2) as [HM3 Hc3].
        fold h3 in HM3.
        eapply ok_bind.
        { eapply (build_content_ok q _ (fresh_loc h2) _ _ _ (z + 7));
            [eassumption|apply HM3|rewrite Hc3; eauto|].
          eapply P_current; [exact Hc3|lia..]. }
        intros h4 s4 k4 (Hk4 & R4 & HM4 & HP4).
        pose proof (zero_moved _ _ _ _ (mv_moved _ _ _ _ _ HM4) Hc3) as Hc4.
        pose proof (move_zero _ _ _ _ _ _ _ HM (move_zero _ _ _ _ _ _ _ HM3 HM4)) as HM'.
        set (A := 2 * G + 8) in *.
        done_ (A * (4 * y2) + 2 * G + G + 2) (1 + 2 * j + G).
        eapply (P_contents_content _ _ _ _ _ A _ G G G); [exact Hc4|unfold A; lia| |..];
          [eapply P_mono; [exact HP4|assumption..]|unfold A; lia|lia..].
      + done_ 0 (2 * j); apply P_contents_none; lia.
    - assert (HBc : Based R c x) by (right; eauto).
      eapply ok_on_ok; [eapply (f_ne e He); [exact HI|eassumption|exact HBc]|called|called];
        (edestruct (sel_moved del R R2 c) as (bl2 & Hc2 & Ha);
          [apply HM|eassumption|eassumption|]); cbn [cost_ne] in HC;
        match goal with H : 2 * x <= A |- _ => pose proof (mulr _ _ (del c) H) as HA end.
      + destruct r as [ev|].
        * done_ (A * bl2 + 2 * y2 + z + 2) (2 * j).
          eapply P_contents_content; [exact Hc2|eassumption|exact HP2|..]; lia.
        * done_ (A * bl2) (1 + j + z). eapply P_contents_close; [exact Hc2|eassumption|..]; lia.
      + done_ (A * bl2) j. apply P_contents_none; lia.
    - eapply ok_on_ok; [eapply source_sk; [exact He|exact HI|eassumption]|called|called];
        (edestruct (sel_moved del R R2 c) as (bl2 & Hc2 & Ha);
          [apply HM|eassumption|eassumption|]); cbn [cost_sk] in HC;
        match goal with H : 8 <= A |- _ => pose proof (mulr _ _ (del c) H) as HA end.
      + assert (Hfail : 2 * j <= b + a * del l) by lia.
        destruct r as [[]|];
          try solve [done_ 0 (2 * j); apply P_contents_none; lia].
        destruct (ident_eqb _ _).
        * done_ 0 (1 + 2 * j). apply P_contents_none; lia.
        * done_ 0 (2 * j). apply P_contents_none; lia.
      + done_ 0 (2 * j). apply P_contents_none; lia.
    - now_ 0 0. apply P_contents_none; lia.
  Qed.

  (** the second part of [SCurrentContent] *)
  Lemma next_pot tag l l' al bl dl level a b d R h :
    Inv R h -> R !! l = Some (l', al, bl, dl) -> 4 <= a -> dl + 3 <= d ->
    let dead := SCurrentContent None in
    Ok (on_ok_c (ne_c e h (SShared l)) (fun _ => dead) (fun h _ r =>
          match r with
          | None => fail_c h dead (missing_close tag)
          | Some ev =>
              match adjust level ev with
              | inl level => emit_c h (SCurrentContent (Some (tag, l, level))) ev
              | inr _ => fail_c h dead (missing_close tag)
              end
          end))
       (fun h' x k => exists del R2, Move del R R2 h h' /\ P R2 (fst x) l a b d /\
          match snd x with
          | inl (Some _) => k <= 2 * del l /\ 1 <= del l
          | _ => k <= 2 * del l + dl + 1
          end).
  Proof.
    intros HI Hl Ha Hd dead.
    eapply ok_on_ok; [eapply source_ne; [exact He|exact HI|eassumption]|called|called];
      cbn [cost_ne] in HC.
    - destruct (mv_moved _ _ _ _ _ HM _ _ _ _ _ Hl) as (bl2 & Hl2 & _).
      destruct r as [ev|]; [destruct (adjust level ev)|]; apply ok_ret; exists del, R2;
        (split; [exact HM|split; [|cbn [fst snd]; lia]]).
      + eapply P_current; eassumption.
      + apply P_current_none; lia.
      + apply P_current_none; lia.
    - exists del, R2. split; [exact HM|]. split; [apply P_current_none; lia|cbn [snd]; lia].
  Qed.

  Lemma current_step st : step_ok e (SCurrentContent st).
  Proof.
    intros R h l a b d HI HP HB. cbn [ne_body_c].
    destruct st as [[[tag c] level]|]; inversion HP; subst; [|now_ 0 0; apply P_current_none; lia].
    match goal with H : R !! l = Some _ |- _ => rename H into Hl end.
    assert (H4 : forall n, 4 * n <= a * n) by (intros n; apply mulr; assumption).
    destruct (negb (level =? 0)).
    - eapply ok_weaken; [eapply (next_pot _ _ _ _ _ _ _ a b d); [exact HI|exact Hl|lia..]|].
      intros h2 [s2 r] k (del & R2 & HM & HP2 & Hk). cbn [fst snd] in *. specialize (H4 (del l)).
      destruct r as [[ev|]|err].
      + done_ b (4 * del l). exact HP2.
      + done_ b (4 * del l). exact HP2.
      + done_ b (4 * del l). exact HP2.
    - eapply ok_on_ok; [eapply (with_cell_pot cost_peek);
                         [intros; apply peek_pot; eassumption|exact HI|exact Hl]|..].
      + intros h2 s2 r k (Es & del & R2 & j & HM & Hj & HC). cbn [snd cost_peek] in HC.
        pose proof (H4 (del l)) as H4l.
        destruct r as [ev|]; [|done_ b (4 * del l); apply P_current_none; lia].
        destruct (is_closing_tag_for ev tag); [done_ b (4 * del l); apply P_current_none; lia|].
        destruct (mv_moved _ _ _ _ _ HM _ _ _ _ _ Hl) as (bl2 & Hl2 & _).
        eapply ok_weaken; [eapply (next_pot _ _ _ _ _ _ _ a b d);
                            [apply HM|exact Hl2|lia..]|].
        intros h3 [s3 r] k3 (del3 & R3 & HM3 & HP3 & Hk3). cbn [fst snd] in *.
        pose proof (H4 (del3 l)) as H4l3.
        pose proof (move_trans _ _ _ _ _ _ _ _ HM HM3) as HM'.
        exists (plus del del3), R3, b, (4 * del l + 4 * del3 l).
        split; [exact HM'|]. split; [exact HP3|]. split; [lia|].
        destruct r as [[ev'|]|err]; cbn [snd cost_ne]; lia.
      + intros h2 s2 err k (Es & del & R2 & j & HM & Hj & HC). cbn [snd cost_peek] in HC.
        pose proof (H4 (del l)) as H4l. done_ b (4 * del l). apply P_current_none; lia.
  Qed.

  Lemma template_step st : step_ok e (STemplateApply st).
  Proof.
    intros R h l a b d HI HP HB. cbn [ne_body_c].
    destruct st as [[s f|evs i]|]; inversion HP; subst.
    - eapply ok_bind; [eapply (f_co e He); [exact HI|eassumption|based HB]|].
      intros h2 r k (del & R2 & j & HM & Hj & Hk & Hr). prods (del l).
      assert (Hjk : (3 + 2 * K) * j <= (3 + 2 * K) * (y + x * del l))
        by (apply Nat.mul_le_mono_l; exact Hj).
      destruct r as [evs|err].
      + destruct (f evs) as [applied|err] eqn:Ef.
        * match goal with H : forall evs evs', f evs = inl evs' -> _ |- _ => apply H in Ef end.
          cbn [length] in Hr.
          assert (K * (length evs + 1) <= K * (j + 1)) by (apply Nat.mul_le_mono_l; lia).
          done_ (2 * (length applied)) (3 * j + z + 3). apply P_apply_emit; lia.
        * done_ 0 (3 * j). apply P_apply_none; lia.
      + done_ 0 (3 * j). apply P_apply_none; lia.
    - eapply (ok_pass _ _ _ _ _ _ 0 (length evs - i) 1);
        [eapply (f_ne e He); [exact HI|apply P_template; lia|left; reflexivity]|lia..| |].
      + intros. apply P_apply_none; lia.
      + intros R' s' y' H'. destruct s'; try (eapply P_mono; [exact H'|lia..]).
        inversion H'; subst. apply P_apply_emit; lia.
    - now_ 0 0. apply P_apply_none; lia.
  Qed.

  Lemma repeat_step st : step_ok e (SRepeat st).
  Proof.
    intros R h l a b d HI HP HB. cbn [ne_body_c].
    destruct st as [[s bs|evs bs|evs s bs]|]; inversion HP; subst.
    - eapply ok_bind; [eapply (f_co e He); [exact HI|eassumption|based HB]|].
      intros h2 r k (del & R2 & j & HM & Hj & Hk & Hr). prods (del l).
      set (N := length bs * E) in *.
      assert (Hjk : (3 + N) * j <= (3 + N) * (y + x * del l))
        by (apply Nat.mul_le_mono_l; exact Hj).
      destruct r as [evs|err].
      + cbn [length] in Hr.
        assert (N * (length evs + 1) <= N * (j + 1)) by (apply Nat.mul_le_mono_l; lia).
        done_ (N * (length evs + 1)) (3 * j + z + 3).
        eapply P_repeat_next; [eassumption..|apply Nat.le_refl|lia].
      + done_ 0 (3 * j). apply P_repeat_none; lia.
    - destruct bs as [|p bs]; [now_ 0 0; apply P_repeat_none; lia|].
      set (F := growth q 1) in *. set (L := length evs + 1) in *.
      eapply ok_bind.
      { eapply (build_ok q _ R _ _ l 0 (length evs) 1); [|exact HI| |left; reflexivity].
        - match goal with H : forall p, In p _ -> _ |- _ => apply H end. left. reflexivity.
        - apply P_template; lia. }
      intros h2 s2 k (Hk & R2 & HM & HP2). fold F in Hk, HP2. fold L in HP2.
      cbn [length] in *.
      assert (HE : (5 * F + 5) * L <= E * L) by (apply mulr; assumption).
      assert (HL : 1 * F <= L * F) by (apply mulr; unfold L; lia).
      assert (HL1 : 1 <= L) by (unfold L; lia).
      done_ (2 * (F * L) + F + 2 + length bs * E * L) (1 + F).
      eapply P_repeat_emit; [exact HP2| |eassumption|lia| |..]; fold F; try (fold L; lia).
      match goal with H : forall p, In p _ -> _ |- _ =>
        intros p' Hp'; apply H; right; exact Hp' end.
    - eapply ok_on_ok; [call_ne HI HB|called|called]; prods (del l); cbn [cost_ne] in HC.
      + destruct r as [ev|].
        * done_ (2 * y2 + z + 2 + length bs * E * (length evs + 1)) (2 * j).
          eapply P_repeat_emit; [exact HP2|eassumption|eassumption|lia..].
        * done_ (length bs * E * (length evs + 1)) (1 + j + z).
          eapply P_repeat_next; [eassumption..|apply Nat.le_refl|lia].
      + done_ 0 j. apply P_repeat_none; lia.
    - now_ 0 0. apply P_repeat_none; lia.
  Qed.

  Lemma roe_step st : step_ok e (SRepeatOrElse st).
  Proof.
    intros R h l a b d HI HP HB. cbn [ne_body_c].
    destruct st as [[contents s bs p|s|s]|]; inversion HP; subst.
    - destruct bs as [|p0 bs].
      + pose proof (growth_above q z) as Hg. set (F := growth q z) in *.
        eapply ok_bind.
        { eapply (build_ok q _ R _ _ l x y z); [eassumption|exact HI|eassumption|].
          eapply based_le; [exact HB|]. nia. }
        intros h2 s2 k (Hk & R2 & HM & HP2). fold F in Hk, HP2.
        done_ (2 * (F * (y + 1))) (1 + F).
        eapply P_roe_fallback; [exact HP2|lia..].
      + now_ (2 * y') 1. eapply P_roe_repeat; [eassumption|lia..].
    - eapply ok_pass; [call_ne HI HB|lia..| |].
      + intros. apply P_roe_none; lia.
      + intros R' s' y' H'. eapply P_roe_fallback; [exact H'|lia..].
    - eapply ok_pass; [call_ne HI HB|lia..| |].
      + intros. apply P_roe_none; lia.
      + intros R' s' y' H'. eapply P_roe_repeat; [exact H'|lia..].
    - now_ 0 0. apply P_roe_none; lia.
  Qed.

  Lemma ne_step s : step_ok e s.
  Proof.
    pose proof (simple_step e He s) as Hs.
    destruct s; [exact Hs|exact Hs|exact Hs|apply shared_step|exact Hs|exact Hs|exact Hs|exact Hs
      |apply remove_step|exact Hs|apply select_step|apply select_once_step|apply contents_step
      |apply current_step|exact Hs|apply template_step|apply repeat_step|apply roe_step|exact Hs].
  Qed.
End Step.

Lemma fine n : Fine (run_c n).
Proof.
  induction n as [|n IH]; [split; intros; exact I|].
  split; intros R h s l a b d; [| | |intros acc]; intros HI HP HB;
    cbn [run_c ne_c sk_c dr_c co_c]; apply ok_tick.
  - apply (ne_step _ IH); assumption.
  - eapply ok_bind; [apply (f_ne _ IH); eassumption|].
    intros h2 [s2 r] k (del & R2 & b2 & j & HM & HP2 & Hj & HC). cbn [fst snd] in *.
    destruct r as [[ev|]|err]; cbn [cost_ne] in HC.
    + assert (Hd : Ok (ret_c h2 (s2, inl (Some ev)) : step_out_c)
        (fun h' x k' => Calls cost_sk R h l a b d h' x (S (k + k')))).
      { done_ b2 j. exact HP2. }
      destruct ev; try exact Hd. clear Hd.
      eapply ok_weaken; [apply (f_sk _ IH); [apply HM|exact HP2|eapply based_moved; [apply HM|exact HB]]|].
      intros h3 [s3 r3] k3 (del3 & R3 & b3 & j3 & HM3 & HP3 & Hj3 & HC3). cbn [fst snd] in *.
      exists (plus del del3), R3, b3, (j + j3).
      split; [eapply move_trans; eassumption|]. split; [exact HP3|]. split; [lia|].
      destruct r3 as [[ev3|]|err]; cbn [snd cost_sk] in *; lia.
    + done_ b2 j. exact HP2.
    + done_ b2 j. exact HP2.
  - eapply ok_bind; [apply (f_ne _ IH); eassumption|].
    intros h2 [s2 r] k (del & R2 & b2 & j & HM & HP2 & Hj & HC). cbn [fst snd] in *.
    destruct r as [[ev|]|err]; cbn [cost_ne] in HC.
    + eapply ok_weaken; [apply (f_dr _ IH); [apply HM|exact HP2|eapply based_moved; [apply HM|exact HB]]|].
      intros h3 [s3 r3] k3 (s4 & Es & (del3 & R3 & b3 & j3 & HM3 & HP3 & Hj3 & HC3) & Hr).
      cbn [fst snd] in *. exists s4. split; [exact Es|]. split; [|exact Hr].
      exists (plus del del3), R3, b3, (j + j3).
      split; [eapply move_trans; eassumption|]. split; [exact HP3|]. split; [lia|].
      destruct r3 as [[ev3|]|err]; cbn [snd cost_sk] in *; lia.
    + apply ok_ret. exists s2. split; [reflexivity|]. split; [|discriminate].
      cbn [snd]. done_ b2 j. exact HP2.
    + apply ok_ret. exists s2. split; [reflexivity|]. split; [|discriminate].
      cbn [snd]. done_ b2 j. exact HP2.
  - eapply ok_bind; [apply (f_sk _ IH); eassumption|].
    intros h2 [s2 r] k (del & R2 & b2 & j & HM & HP2 & Hj & HC). cbn [fst snd] in *.
    destruct r as [[ev|]|err]; cbn [cost_sk] in HC.
    + eapply ok_weaken; [apply (f_co _ IH); [apply HM|exact HP2|eapply based_moved; [apply HM|exact HB]]|].
      intros h3 r3 k3 (del3 & R3 & j3 & HM3 & Hj3 & Hk3 & Hr3).
      exists (plus del del3), R3, (j + j3). split; [eapply move_trans; eassumption|].
      rewrite app_length in Hr3. cbn [length] in Hr3.
      split; [lia|]. split; [lia|]. destruct r3; [lia|exact I].
    + apply ok_ret. exists del, R2, j. split; [exact HM|]. split; [lia|]. split; [lia|]. lia.
    + apply ok_ret. exists del, R2, j. split; [exact HM|]. split; [lia|]. split; [lia|exact I].
Qed.

(** A bound for all programs of size [m] and all documents. *)
Definition work_bound (m : nat) : nat := 10 * growth m 1.

Lemma transform_work m p n evs h r k : Sized m p ->
  transform_c n evs p = (Done h r, k) ->
  k <= work_bound m * (length evs + 1) /\
  match r with inl out => length out <= work_bound m * (length evs + 1) | inr _ => True end.
Proof.
  intros Hp E.
  assert (HI : Inv ∅ ∅).
  { split; [reflexivity|..]; intros *; rewrite lookup_empty; discriminate. }
  assert (HP : P ∅ (STemplate evs 0) 1%positive 0 (length evs) 1) by (apply P_template; lia).
  assert (HO : Ok (transform_c n evs p) (fun _ r k =>
    k <= work_bound m * (length evs + 1) /\
    match r with inl out => length out <= work_bound m * (length evs + 1) | inr _ => True end)).
  { unfold transform_c. eapply ok_bind.
    - eapply build_ok; [exact Hp|exact HI|exact HP|left; reflexivity].
    - intros h1 s1 k1 (Hk1 & R1 & HM & HP1).
      pose proof (growth_above m 1) as Hg. set (F := growth m 1) in *.
      eapply ok_weaken; [apply (f_co _ (fine n) _ _ _ _ _ _ _ _ (mv_inv _ _ _ _ _ HM) HP1);
                          left; lia|].
      intros h2 r2 k2 (del & R2 & j & _ & Hj & Hk & Hr). unfold work_bound. fold F.
      assert (HL : F <= F * (length evs + 1)) by nia.
      cbn [length] in Hr. split; [lia|]. destruct r2; [lia|exact I]. }
  rewrite E in HO. exact HO.
Qed.
