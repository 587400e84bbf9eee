(** Basic facts about the specification. *)
From Coq Require Import List Arith Lia.
From Verif Require Import Spec.
Import ListNotations.

Lemma reach_trans : forall R c1 c2 c3, reach R c1 c2 -> reach R c2 c3 -> reach R c1 c3.
Proof. intros R c1 c2 c3 H; induction H; intros; auto. eapply reach_step; eauto. Qed.

Lemma reach_one : forall R c1 c2, step R c1 c2 -> reach R c1 c2.
Proof. intros. eapply reach_step; eauto using reach_refl. Qed.

Lemma apply_op_app : forall o l w v, apply_op o l (w ++ v) = apply_op o l w ++ v.
Proof. destruct o; reflexivity. Qed.

Lemma step_ctx : forall R p w p' w' v, step R (p,w) (p',w') -> step R (p, w++v) (p', w'++v).
Proof.
  intros R p w p' w' v [r [Hr Hs]]. exists r; split; auto.
  inversion Hs; subst. cbn. rewrite <- apply_op_app. constructor.
Qed.

Lemma reach_ctx : forall R c c' v, reach R c c' -> reach R (fst c, snd c ++ v) (fst c', snd c' ++ v).
Proof.
  intros R c c' v H; induction H.
  - apply reach_refl.
  - eapply reach_step; eauto. destruct c1, c2; cbn. apply step_ctx; auto.
Qed.

Lemma reach_ctx' : forall R p w p' w' v, reach R (p,w) (p',w') -> reach R (p, w++v) (p', w'++v).
Proof. intros. apply (reach_ctx R (p,w) (p',w') v H). Qed.

Lemma reach_last : forall R c1 c3, reach R c1 c3 -> c1 = c3 \/ exists c2, reach R c1 c2 /\ step R c2 c3.
Proof.
  intros R c1 c3 H; induction H.
  - left; auto.
  - right. destruct IHreach as [->|[c [H1 H2]]].
    + exists c1; split; auto using reach_refl.
    + exists c; split; auto. eapply reach_step; eauto.
Qed.

(** Induction over a run from the right. *)
Lemma reach_ind_right : forall R (P : config -> config -> Prop),
  (forall c, P c c) ->
  (forall c1 c2 c3, reach R c1 c2 -> P c1 c2 -> step R c2 c3 -> P c1 c3) ->
  forall c1 c2, reach R c1 c2 -> P c1 c2.
Proof.
  intros R P Hr Hs.
  assert (G: forall c2 c3, reach R c2 c3 -> forall c1, reach R c1 c2 -> P c1 c2 -> P c1 c3).
  { intros c2 c3 H; induction H; intros; auto.
    apply IHreach.
    - eapply reach_trans; eauto using reach_one.
    - eapply Hs; eauto. }
  intros. eapply G; eauto using reach_refl.
Qed.

Lemma apath_app : forall E q w q1 w' q2, apath E q w q1 -> apath E q1 w' q2 -> apath E q (w ++ w') q2.
Proof. intros E q w q1 w' q2 H; induction H; intros; cbn; auto.
  - eapply ap_lab; eauto.
  - eapply ap_eps; eauto.
Qed.

Lemma npath_app : forall E q w q1 w' q2, npath E q w q1 -> npath E q1 w' q2 -> npath E q (w ++ w') q2.
Proof. intros E q w q1 w' q2 H; induction H; intros; cbn; auto. eapply np_cons; eauto. Qed.

Lemma apath_mono : forall (E E' : edgeset), (forall a l b, E a l b -> E' a l b) ->
  forall q w q', apath E q w q' -> apath E' q w q'.
Proof. intros E E' H q w q' Hp; induction Hp; eauto using apath. Qed.

Lemma npath_mono : forall (E E' : edgeset), (forall a l b, E a l b -> E' a l b) ->
  forall q w q', npath E q w q' -> npath E' q w q'.
Proof. intros E E' H q w q' Hp; induction Hp; eauto using npath. Qed.

Lemma npath_apath : forall E q w q', npath E q w q' -> apath E q w q'.
Proof. intros E q w q' H; induction H; eauto using apath. Qed.

Lemma apath_npath : forall (E : edgeset), (forall a b, ~ E a None b) ->
  forall q w q', apath E q w q' -> npath E q w q'.
Proof. intros E HE q w q' H; induction H; eauto using npath. exfalso; eapply HE; eauto. Qed.

Lemma step_mono : forall (R R' : pds), (forall r, R r -> R' r) -> forall c c', step R c c' -> step R' c c'.
Proof. intros R R' H c c' [r [Hr Hs]]; exists r; auto. Qed.

Lemma reach_mono : forall (R R' : pds), (forall r, R r -> R' r) -> forall c c', reach R c c' -> reach R' c c'.
Proof. intros R R' H c c' Hr; induction Hr; eauto using reach, step_mono. Qed.

(** A pushdown run never continues from the empty stack. *)
Lemma reach_nil_inv : forall R p c, reach R (p, []) c -> c = (p, []).
Proof.
  intros R p c H. inversion H; subst; auto.
  destruct H0 as [r [_ Hs]]. inversion Hs.
Qed.
