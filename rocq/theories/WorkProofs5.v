(** Proofs for C63: the cost of each step. *)
From Coq Require Import List Lia PeanoNat.
From stdpp Require Import gmap.
From Verif Require Import Text Event Input Parse Selector Machine.
From Verif Require Import SpecTransform SpecWork MachineCost StreamBase.
From Verif Require Import WorkProofs2 WorkProofs3 WorkProofs4.
Local Open Scope nat_scope.

Lemma sel_moved del R R2 c l al bl dl A a : Moved del R R2 -> R !! c = Some (l, al, bl, dl) ->
  A * al <= a ->
  exists bl2, R2 !! c = Some (l, al, bl2, dl) /\ A * bl2 + A * del c <= A * bl + a * del l.
Proof.
  intros HR Hc HA. destruct (HR _ _ _ _ _ Hc) as (bl' & Hc' & E).
  exists bl'. split; [exact Hc'|]. pose proof (mulr _ _ (del l) HA). nia.
Qed.
Lemma zero_moved R R2 c e : Moved zero R R2 -> R !! c = Some e -> R2 !! c = Some e.
Proof.
  intros HR Hc. destruct e as [[[l a] b] d]. destruct (HR _ _ _ _ _ Hc) as (b2 & E & Eb).
  cbv beta in Eb. rewrite E. repeat f_equal. lia.
Qed.

Lemma build_ok q p R h s l a b d : Sized q p -> Inv R h -> P R s l a b d -> Based R l a ->
  Ok (build_c p h s) (fun h' s' k => k <= growth q d /\ exists R', Move zero R R' h h' /\
    P R' s' l (growth q d * a) (growth q d * (b + 1)) (growth q d)).
Proof.
  intros Hp HI HP HB. destruct (grows q p Hp) as [Hk Hb]. unfold build_c.
  destruct (build p h s) as [| |h' s'] eqn:E; [exact I..|]. cbn. split; [apply Hk|].
  eapply Hb; eassumption.
Qed.
Lemma build_content_ok q b c R h s d : CB q b -> Inv R h -> is_Some (R !! c) -> P R s c 4 0 d ->
  Ok (build_content_c b h s) (fun h' s' k => k <= content_growth (growth q) q d /\
    exists R', Move zero R R' h h' /\
      P R' s' c (content_growth (growth q) q d) (content_growth (growth q) q d)
        (content_growth (growth q) q d)).
Proof.
  intros Hb HI Hc HP. unfold build_content_c.
  destruct (build_content b h s) as [| |h' s'] eqn:E; [exact I..|]. cbn.
  exact (build_content_pot q (grows q) b c R h s d h' s' Hb HI Hc HP E).
Qed.

Section Step.
  Context (e : engine_c) (He : Fine e).

  Ltac based HB := eapply based_le; [exact HB|nia].
  Ltac call_ne HI HB := eapply (f_ne e He); [exact HI|eassumption|based HB].
  Ltac call_sk HI HB := eapply (f_sk e He); [exact HI|eassumption|based HB].
  Ltac close := cbn [cost_ne cost_sk] in *; lia.

  Definition step_ok (s : strm) : Prop := forall R h l a b d,
    Inv R h -> P R s l a b d -> Based R l a ->
    Ok (ne_body_c e h s) (fun h' x k => Calls cost_ne R h l a b d h' x (S k)).

  (** Streams without a cell *)
  Lemma simple_step s : match s with
    | STemplate _ _ | SUser _ _ | SContent _ | SFallible _ | SExpand _ | SPeek _ _ | SCombine _
    | SSingle _ | SApplyEither _ _ | SAttr _ => step_ok s
    | _ => True end.
  Proof.
    destruct s as [evs i|evs stop|c|lo|st|st|s pk|st|s|st|c m bd n dr st|c st|st|st|fi s|st|st|st|st];
      try exact I; intros R h l a b d HI HP HB; cbn [ne_body_c];
      try destruct st as [st|]; try destruct pk as [pk|].
    - inversion HP; subst. destruct (nth_error evs i) as [ev|] eqn:E.
      + assert (i < length evs) by (apply nth_error_Some; congruence).
        now_ (length evs - S i) 1. apply P_template; lia.
      + now_ b 0. exact HP.
    - inversion HP; subst. destruct evs as [|ev evs].
      + destruct stop; now_ 0 0; apply P_user; cbn; lia.
      + cbn [length] in *. now_ (length evs) 1. apply P_user; lia.
    - destruct c as [c|]; inversion HP; subst.
      + now_ 0 1. apply P_content_none; lia.
      + now_ 0 0. exact (P_content_none _ _ _ _ _ ltac:(eassumption)).
    - destruct st as [[s|err]|s]; inversion HP; subst.
      + now_ (2 * y) 1. eapply P_fallible_emit; [eassumption|lia..].
      + now_ 0 0. apply P_fallible_none; lia.
      + eapply ok_pass; [call_ne HI HB|lia..| |].
        * intros. apply P_fallible_none; lia.
        * intros R' s' y' H'. eapply P_fallible_emit; [exact H'|lia..].
    - inversion HP; subst. now_ 0 0. apply P_fallible_none; lia.
    - destruct st as [s|s|tag]; inversion HP; subst.
      + eapply ok_on_ok; [call_sk HI HB|called|called]; prods (del l).
        * destruct r as [[]|]; cbn [cost_sk] in HC;
            first [ solve [done_ (2 * y2) (1 + 2 * j); eapply P_expand_emit; [eassumption|lia..]]
                  | solve [done_ 1 (1 + 2 * j); apply P_expand_close; lia]
                  | solve [done_ 0 (1 + 2 * j); apply P_expand_none; lia]
                  | solve [done_ 0 (2 * j); apply P_expand_none; lia] ].
        * cbn [cost_sk] in HC. done_ 0 (2 * j). apply P_expand_none; lia.
      + eapply ok_pass; [call_ne HI HB|lia..| |].
        * intros. apply P_expand_none; lia.
        * intros R' s' y' H'. eapply P_expand_emit; [exact H'|lia..].
      + now_ 0 1. apply P_expand_none; lia.
    - inversion HP; subst. now_ 0 0. apply P_expand_none; lia.
    - inversion HP; subst. now_ (4 * y) 1. eapply P_peek_none; [eassumption|lia..].
    - inversion HP; subst. eapply ok_on_ok; [call_sk HI HB|called|called]; prods (del l).
      + destruct r as [ev|]; cbn [cost_sk] in HC.
        * done_ (4 * y2) (4 * j). eapply P_peek_none; [eassumption|lia..].
        * done_ (4 * y2) (2 * j). eapply P_peek_none; [eassumption|lia..].
      + cbn [cost_sk] in HC. done_ (4 * y2) (2 * j). eapply P_peek_none; [eassumption|lia..].
    - destruct st as [s1 s2|s2]; inversion HP; subst.
      + rename y2 into w2, s2 into t2. eapply ok_on_ok; [call_sk HI HB|called|called]; prods (del l);
          match goal with H : P R t2 l ?x ?y ?z |- _ =>
            pose proof (P_moved _ _ _ (mv_moved _ _ _ _ _ HM) _ _ _ _ _ H) as HPs end.
        * destruct r as [ev|]; cbn [cost_sk] in HC.
          -- done_ (3 * y2 + 3 * (w2 + x2 * del l) + z1 + 3) (3 * j).
             eapply P_combine_first; [eassumption|eassumption|lia..].
          -- done_ (3 * (w2 + x2 * del l)) (2 * j + z1 + 3).
             eapply P_combine_second; [eassumption|lia..].
        * cbn [cost_sk] in HC. done_ 0 (2 * j). apply P_combine_none; lia.
      + eapply ok_pass_sk; [call_sk HI HB|lia..| |].
        * intros. apply P_combine_none; lia.
        * intros R' s' y' H'. eapply P_combine_second; [exact H'|lia..].
    - inversion HP; subst. now_ 0 0. apply P_combine_none; lia.
    - destruct st as [ev s|tag s level]; inversion HP; subst.
      + destruct ev;
          first [ solve [now_ (2 * y) 1; eapply P_single_until; [eassumption|lia..]]
                | solve [now_ 0 0; apply P_single_none; lia]
                | solve [now_ 0 1; apply P_single_none; lia] ].
      + eapply ok_on_ok; [call_ne HI HB|called|called]; prods (del l); cbn [cost_ne] in HC.
        * destruct r as [ev|]; [|done_ 0 j; apply P_single_none; lia].
          destruct (is_opening_tag_for ev tag);
            [done_ (2 * y2) (2 * j); eapply P_single_until; [eassumption|lia..]|].
          destruct (is_closing_tag_for ev tag);
            [destruct level; [done_ 0 (2 * j); apply P_single_none; lia|]|];
            done_ (2 * y2) (2 * j); (eapply P_single_until; [eassumption|lia..]).
        * done_ 0 j. apply P_single_none; lia.
    - inversion HP; subst. now_ 0 0. apply P_single_none; lia.
    - inversion HP; subst. eapply ok_bind; [call_ne HI HB|].
      intros h2 [s2 r] k (del & R2 & y2 & j & HM & HP2 & Hj & HC). cbn [fst snd] in *.
      prods (del l). destruct r as [[ev|]|err]; cbn [cost_ne] in HC.
      + done_ (2 * y2) (2 * j). eapply P_either; [eassumption|lia..].
      + done_ (2 * y2) j. eapply P_either; [eassumption|lia..].
      + done_ (2 * y2) j. eapply P_either; [eassumption|lia..].
    - destruct st as [s c|s]; inversion HP; subst.
      + eapply ok_on_ok; [call_sk HI HB|called|called]; prods (del l); cbn [cost_sk] in HC.
        * destruct r as [[]|];
            first [ solve [done_ (2 * y2) (1 + 2 * j); eapply P_attr_emit; [eassumption|lia..]]
                  | solve [done_ 0 (1 + 2 * j); apply P_attr_none; lia]
                  | solve [done_ 0 (2 * j); apply P_attr_none; lia] ].
        * done_ 0 (2 * j). apply P_attr_none; lia.
      + eapply ok_pass; [call_ne HI HB|lia..| |].
        * intros. apply P_attr_none; lia.
        * intros R' s' y' H'. eapply P_attr_emit; [exact H'|lia..].
    - inversion HP; subst. now_ 0 0. apply P_attr_none; lia.
  Qed.
End Step.
