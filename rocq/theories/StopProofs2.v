(** Proofs for C68, part 2: consequences. *)
From Coq Require Import String ZArith Lia.
From stdpp Require Import gmap.
From Verif Require Import Text Event Input Parse Selector Machine MachineState Trace.
From Verif Require Import SpecTransform SpecState SpecStop StateProofs4 StopProofs.
Local Open Scope nat_scope.

Lemma ending_returns {W} evs (b : once W) w : Ending (snd (b w)) ->
  exists r w', GivesIn evs b w r w' /\
    exists n, forall m, n <= m -> exists h, wtransform m evs b w = WDone (h, w') r.
Proof.
  intros Hb. destruct (ending_gives evs b w Hb) as (r & w' & n & h & E). exists r, w'.
  split; [by exists n, h|]. exists n. intros m Hm. exists h. by eapply wtransform_done.
Qed.

Lemma ends_list {W} (l : list (once W)) : Ends (fun i w => (w, nth_error l i)).
Proof.
  induction l as [|b l IH]; constructor; intros w w' b' E; cbn in E; [discriminate|]. exact IH.
Qed.
Lemma ends_ext {W} (it it' : iterator W) : (forall k w, it k w = it' k w) -> Ends it' -> Ends it.
Proof.
  intros E H. revert it E. induction H as [it' _ IH]. intros it E. constructor. intros w w' b Eb.
  rewrite E in Eb. eapply IH; eauto.
Qed.
Lemma ends_events_ext {W} (f f' : live W) : (forall k w, f k w = f' k w) -> EndsEvents f' -> EndsEvents f.
Proof.
  intros E H. revert f E. induction H as [f' _ IH]. intros f E. constructor. intros w w' ev Eb.
  rewrite E in Eb. eapply IH; eauto.
Qed.
Lemma ends_stateless {W} (bs : list pipeline) :
  Ends (fun i (w : W) => (w, option_map (fun p w => (w, p)) (nth_error (map (map stateless_op) bs) i))).
Proof.
  eapply ends_ext; [|apply (ends_list (map (fun p w => (w, p)) (map (map stateless_op) bs)))].
  intros k w. apply (f_equal (pair w)). symmetry. apply nth_error_map.
Qed.
Lemma ending_stateless {W} (p : pipeline) : Ending (W := W) (map stateless_op p).
Proof.
  assert (forall o, Ending (W := W) [stateless_op o]) as H1.
  { apply op_sub_ind. intros o IH.
    assert (forall q, Sub o q -> Ending (W := W) (map stateless_op q)) as Hq.
    { intros q Hs. constructor; intros o' x Ho' Hx; apply in_map_iff in Ho' as (o1 & <- & Ho1);
        specialize (IH q Hs o1 Ho1); inversion IH; subst; eauto using in_eq. }
    constructor.
    - intros o' it [<-|[]] Ha. destruct o; cbn in Ha; try contradiction; subst; apply ends_stateless.
    - intros o' f [<-|[]] Hf. destruct o; cbn in Hf; contradiction.
    - intros o' q [<-|[]] Hm. destruct o; cbn in Hm; try contradiction.
      all: repeat match goal with H : exists _, _ |- _ => destruct H as [? H] | H : _ \/ _ |- _ => destruct H end.
      all: subst; try (apply Hq; cbn; eauto; fail).
      all: match goal with H : _ /\ _ |- _ => destruct H as [E ->] end; injection E as E0 E;
           rewrite nth_error_map in E;
           destruct (nth_error bs _) as [?|] eqn:En; cbn in E; [|discriminate]; injection E as <-;
           apply nth_error_In in En; apply Hq; cbn; auto. }
  induction p as [|o p IHp]; constructor; intros o' x; cbn.
  - intros [].
  - intros [].
  - intros [].
  - intros [<-|Ho'] Hx.
    + specialize (H1 o). inversion H1; subst; eauto using in_eq.
    + inversion IHp; subst; eauto.
  - intros [<-|Ho'] Hx.
    + specialize (H1 o). inversion H1; subst; eauto using in_eq.
    + inversion IHp; subst; eauto.
  - intros [<-|Ho'] Hx.
    + specialize (H1 o). inversion H1; subst; eauto using in_eq.
    + inversion IHp; subst; eauto.
Qed.
