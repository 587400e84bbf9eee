(** Facts about the weights of WeightModel.v. The specification: a weight denotes a cost; costs are the integers with a best and a
    worst value. *)
From Coq Require Import List ZArith Bool Lia.
From Verif Require Import Base BaseFacts WeightModel.
Import ListNotations.
Local Open Scope Z_scope.

Inductive cost := Best | Fin (z : Z) | Worst.
Definition c_lt (a b : cost) : Prop :=
  match a, b with
  | Worst, _ => False
  | _, Worst => True
  | _, Best => False
  | Best, Fin _ => True
  | Fin x, Fin y => x < y
  end.
Definition c_add (a b : cost) : cost :=
  match a, b with
  | Worst, _ | _, Worst => Worst
  | Best, _ | _, Best => Best
  | Fin x, Fin y => Fin (x + y)
  end.
(** The cost a value stands for. Minimising: the largest value is the worst, and in signed types the smallest is the best.
    Maximising: gains are negative costs; unsigned types use their largest value as worst and the one below it as best. *)
Definition den (T : ity) (mx : bool) (v : Z) : cost :=
  match mx, it_signed T with
  | false, false => if v =? t_max T then Worst else Fin v
  | false, true => if v =? t_max T then Worst else if v =? t_min T then Best else Fin v
  | true, false => if v =? t_max T then Worst else if v =? t_max T - 1 then Best else Fin (- v)
  | true, true => if v =? t_min T then Worst else if v =? t_max T then Best else Fin (- v)
  end.
Definition wide (T : ity) : Prop := 2 <= it_bits T.
(** The sum of two finite weights is again a value of the type that stands for a finite cost. *)
Definition fits (T : ity) (mx : bool) (a b : Z) : Prop :=
  match den T mx a, den T mx b with
  | Fin x, Fin y => in_ty T (a + b) /\ den T mx (a + b) = Fin (x + y)
  | _, _ => True
  end.

Lemma pow_split : forall b, 2 <= b -> exists P, 2 <= P /\ 2 ^ (b - 1) = P /\ 2 ^ b = 2 * P.
Proof.
  intros b H. exists (2 ^ (b - 1)). ands; auto.
  - change 2 with (2 ^ 1) at 1. apply Z.pow_le_mono_r; lia.
  - rewrite <- Z.pow_succ_r by lia. f_equal. lia.
Qed.

Ltac zb :=
  repeat match goal with
  | |- context [?x =? ?y] => destruct (Z.eqb_spec x y)
  | |- context [?x <? ?y] => destruct (Z.ltb_spec x y)
  | |- context [?x <=? ?y] => destruct (Z.leb_spec x y)
  | H : context [?x =? ?y] |- _ => destruct (Z.eqb_spec x y)
  | H : context [?x <? ?y] |- _ => destruct (Z.ltb_spec x y)
  | H : context [?x <=? ?y] |- _ => destruct (Z.leb_spec x y)
  end.
Ltac weights T mx :=
  let b := fresh "b" in let sg := fresh "sg" in
  destruct T as [sg b]; unfold wide, fits, in_ty, den, w_less, w_add, t_add, w_max, w_bottom, t_min, t_max in *; cbn [it_signed it_bits] in *;
  match goal with H : 2 <= b |- _ => destruct (pow_split b H) as (?P & ? & ?E1 & ?E2); rewrite ?E1, ?E2 in * end;
  destruct sg, mx; cbn [andb orb negb] in *.

Lemma den_inj : forall T mx a b, wide T -> in_ty T a -> in_ty T b -> den T mx a = den T mx b -> a = b.
Proof. intros T mx a b W Ha Hb. weights T mx; zb; intros E; try injection E; try discriminate; try lia. Qed.

Lemma less_den : forall T mx a b, wide T -> in_ty T a -> in_ty T b -> w_less T mx a b = true <-> c_lt (den T mx a) (den T mx b).
Proof. intros T mx a b W Ha Hb. weights T mx; zb; cbn; split; intros X; try discriminate; try reflexivity; try easy; try lia. Qed.

Lemma add_den : forall T mx a b, wide T -> in_ty T a -> in_ty T b -> fits T mx a b ->
  exists r, w_add T mx a b = Some r /\ in_ty T r /\ den T mx r = c_add (den T mx a) (den T mx b).
Proof.
  intros T mx a b W Ha Hb F. weights T mx; zb; cbn in *; try match goal with H : _ /\ (_ = _) |- _ => destruct H end; try lia; try discriminate;
  rewrite ?Z.mod_small by lia; eexists; (split; [reflexivity|]); zb; cbn; try (split; [lia|]); try reflexivity; try lia; try assumption.
Qed.

(** ** The algebra of costs *)
Lemma c_lt_irrefl : forall a, ~ c_lt a a. Proof. destruct a; cbn; lia. Qed.
Lemma c_lt_trans : forall a b c, c_lt a b -> c_lt b c -> c_lt a c. Proof. destruct a, b, c; cbn; try tauto; lia. Qed.
Lemma c_lt_total : forall a b, c_lt a b \/ a = b \/ c_lt b a.
Proof. destruct a as [|x|], b as [|y|]; cbn; auto. destruct (Z.lt_trichotomy x y) as [|[->|]]; auto. Qed.
Lemma c_add_comm : forall a b, c_add a b = c_add b a. Proof. destruct a, b; cbn; auto. f_equal; lia. Qed.
Lemma c_add_assoc : forall a b c, c_add (c_add a b) c = c_add a (c_add b c). Proof. destruct a, b, c; cbn; auto. f_equal; lia. Qed.
Lemma c_add_mono : forall a b c, c_lt a b -> ~ c_lt (c_add b c) (c_add a c).
Proof. destruct a, b, c; cbn; intros; try tauto; lia. Qed.
Lemma c_add_strict : forall a b z, c_lt a b -> c_lt (c_add a (Fin z)) (c_add b (Fin z)).
Proof. destruct a, b; cbn; intros; try tauto; lia. Qed.
Lemma c_add_cancel : forall a b z, c_add a (Fin z) = c_add b (Fin z) -> a = b.
Proof. intros a b z H. destruct a, b; cbn in *; try discriminate; auto. injection H; intros; f_equal; lia. Qed.

Lemma w_add_comm : forall T mx a b, w_add T mx a b = w_add T mx b a.
Proof.
  intros T mx a b. unfold w_add, t_add. rewrite (Z.add_comm b a), (orb_comm (b =? w_max T mx)), (orb_comm (b =? w_bottom T mx)). reflexivity.
Qed.
Lemma w_add_assoc : forall T mx a b c ab bc, wide T -> in_ty T a -> in_ty T b -> in_ty T c -> fits T mx a b -> fits T mx b c ->
  w_add T mx a b = Some ab -> w_add T mx b c = Some bc -> fits T mx ab c -> fits T mx a bc -> w_add T mx ab c = w_add T mx a bc.
Proof.
  intros T mx a b c ab bc W Ha Hb Hc F1 F2 E1 E2 F3 F4.
  destruct (add_den T mx a b W Ha Hb F1) as (r1 & X1 & I1 & D1). rewrite X1 in E1. injection E1 as ->.
  destruct (add_den T mx b c W Hb Hc F2) as (r2 & X2 & I2 & D2). rewrite X2 in E2. injection E2 as ->.
  destruct (add_den T mx ab c W I1 Hc F3) as (r3 & X3 & I3 & D3).
  destruct (add_den T mx a bc W Ha I2 F4) as (r4 & X4 & I4 & D4).
  rewrite X3, X4. f_equal. apply (den_inj T mx); auto. rewrite D3, D4, D1, D2. apply c_add_assoc.
Qed.
Lemma w_add_zero : forall T mx a, wide T -> in_ty T a -> w_add T mx a 0 = Some a.
Proof. intros T mx a W Ha. weights T mx; zb; cbn in *; rewrite ?Z.add_0_r; try rewrite Z.mod_small by lia; f_equal; lia. Qed.

(** ** Arrays *)
Inductive lex_lt : list cost -> list cost -> Prop :=
| ll_nil : forall y b, lex_lt [] (y :: b)
| ll_here : forall x y a b, c_lt x y -> lex_lt (x :: a) (y :: b)
| ll_next : forall x a b, lex_lt a b -> lex_lt (x :: a) (x :: b).
Definition all_ty (T : ity) (l : list Z) : Prop := Forall (in_ty T) l.
Definition denl (T : ity) (mx : bool) : list Z -> list cost := map (den T mx).
Definition afits (T : ity) (mx : bool) (a b : list Z) : Prop := Forall2 (fits T mx) a b.
Inductive zip_add : list cost -> list cost -> list cost -> Prop :=
| za_nil : zip_add [] [] []
| za_cons : forall x y a b r, zip_add a b r -> zip_add (x :: a) (y :: b) (c_add x y :: r).

Lemma lex_cons : forall x y a b, lex_lt (x :: a) (y :: b) <-> c_lt x y \/ x = y /\ lex_lt a b.
Proof. intros. split; [intros X; inversion X; subst; auto|intros [X|[-> X]]; [apply ll_here; auto|apply ll_next; auto]]. Qed.
Lemma lex_den : forall T mx a b, wide T -> all_ty T a -> all_ty T b -> a_less T mx a b = true <-> lex_lt (denl T mx a) (denl T mx b).
Proof.
  intros T mx a b W Ha. revert b. unfold a_less. induction Ha as [|x a Hx Ha IH]; intros b Hb; destruct Hb as [|y b Hy Hb]; cbn.
  - split; [discriminate|intros X; inversion X].
  - split; [intros _; constructor|auto].
  - split; [discriminate|intros X; inversion X].
  - pose proof (less_den T mx x y W Hx Hy) as L1. pose proof (less_den T mx y x W Hy Hx) as L2. rewrite lex_cons.
    destruct (w_less T mx x y).
    + split; auto. intros _. left. apply L1; auto.
    + destruct (w_less T mx y x).
      * split; [discriminate|]. assert (Y : c_lt (den T mx y) (den T mx x)) by (apply L2; auto). intros [X|[X _]].
        -- apply L1 in X. discriminate.
        -- rewrite X in Y. exfalso. exact (c_lt_irrefl _ Y).
      * rewrite (IH b Hb). split.
        -- intros X. right. split; auto.
           destruct (c_lt_total (den T mx x) (den T mx y)) as [Y|[Y|Y]]; auto; [apply L1 in Y|apply L2 in Y]; discriminate.
        -- intros [X|[_ X]]; auto. apply L1 in X. discriminate.
Qed.
Lemma lex_irrefl : forall a, ~ lex_lt a a.
Proof. induction a; intros X; inversion X; subst; auto. eapply c_lt_irrefl; eauto. Qed.
Lemma lex_trans : forall a b c, lex_lt a b -> lex_lt b c -> lex_lt a c.
Proof.
  intros a b c H. revert c. induction H; intros c' X; inversion X; subst; try (constructor; eauto; fail).
  apply ll_here. eapply c_lt_trans; eauto.
Qed.
Lemma lex_total : forall a b, lex_lt a b \/ a = b \/ lex_lt b a.
Proof.
  induction a as [|x a IH]; intros [|y b]; auto using lex_lt.
  destruct (c_lt_total x y) as [H|[->|H]]; [left; constructor; auto| |right; right; constructor; auto].
  destruct (IH b) as [H|[->|H]]; auto using lex_lt.
Qed.
Lemma denl_inj : forall T mx a b, wide T -> all_ty T a -> all_ty T b -> denl T mx a = denl T mx b -> a = b.
Proof.
  intros T mx a b W Ha. revert b. induction Ha as [|x a Hx Ha IH]; intros b Hb E; destruct Hb as [|y b Hy Hb]; try discriminate; auto.
  cbn in E. injection E as E1 E2. f_equal; [eapply den_inj; eauto|auto].
Qed.
Lemma a_add_den : forall T mx a b, wide T -> all_ty T a -> all_ty T b -> afits T mx a b ->
  exists r, a_add T mx a b = Some r /\ all_ty T r /\ zip_add (denl T mx a) (denl T mx b) (denl T mx r).
Proof.
  intros T mx a b W Ha Hb F. induction F as [|x y a b F1 F IH]; cbn.
  - eexists; ands; eauto; constructor.
  - inversion Ha as [|? ? Hx Ha']; subst. inversion Hb as [|? ? Hy Hb']; subst.
    destruct (add_den T mx x y W Hx Hy F1) as (z & E & Iz & D). rewrite E. cbn.
    destruct (IH Ha' Hb') as (r & -> & Ir & Z). cbn. eexists; ands; eauto; [constructor; auto|]. cbn. rewrite D. constructor; auto.
Qed.
Lemma zip_fun : forall a b r, zip_add a b r -> forall r', zip_add a b r' -> r = r'.
Proof. induction 1; intros r' X; inversion X; subst; auto. f_equal; auto. Qed.
Lemma zip_assoc : forall a b ab, zip_add a b ab -> forall c bc r r', zip_add b c bc -> zip_add ab c r -> zip_add a bc r' -> r = r'.
Proof.
  induction 1; intros c bc rr r' B R R'.
  - inversion B; subst. inversion R; subst. inversion R'; subst. auto.
  - inversion B; subst. inversion R; subst. inversion R'; subst. f_equal; eauto. apply c_add_assoc.
Qed.
Lemma a_add_comm : forall T mx a b, a_add T mx a b = a_add T mx b a.
Proof. intros T mx. induction a as [|x a IH]; intros [|y b]; cbn; auto. rewrite w_add_comm, IH. reflexivity. Qed.
Lemma a_add_assoc : forall T mx a b c ab bc, wide T -> all_ty T a -> all_ty T b -> all_ty T c -> afits T mx a b -> afits T mx b c ->
  a_add T mx a b = Some ab -> a_add T mx b c = Some bc -> afits T mx ab c -> afits T mx a bc -> a_add T mx ab c = a_add T mx a bc.
Proof.
  intros T mx a b c ab bc W Ha Hb Hc F1 F2 E1 E2 F3 F4.
  destruct (a_add_den T mx a b W Ha Hb F1) as (r1 & X1 & I1 & D1). rewrite X1 in E1. injection E1 as ->.
  destruct (a_add_den T mx b c W Hb Hc F2) as (r2 & X2 & I2 & D2). rewrite X2 in E2. injection E2 as ->.
  destruct (a_add_den T mx ab c W I1 Hc F3) as (r3 & X3 & I3 & D3).
  destruct (a_add_den T mx a bc W Ha I2 F4) as (r4 & X4 & I4 & D4).
  rewrite X3, X4. f_equal. apply (denl_inj T mx); auto. eapply zip_assoc; [exact D1|exact D2|exact D3|exact D4].
Qed.
Lemma a_add_zero : forall T mx a, wide T -> all_ty T a -> a_add T mx a (a_zero (length a)) = Some a.
Proof. intros T mx a W H. induction H; cbn; auto. rewrite w_add_zero by auto. unfold a_zero in *. cbn. rewrite IHForall. reflexivity. Qed.
Lemma w_add_max : forall T mx a, w_add T mx a (w_max T mx) = Some (w_max T mx).
Proof. intros. unfold w_add. rewrite Z.eqb_refl, orb_true_r. reflexivity. Qed.
Lemma a_add_max : forall T mx a, a_add T mx a (a_max T mx (length a)) = Some (a_max T mx (length a)).
Proof. intros T mx. induction a; cbn; auto. rewrite w_add_max. cbn. unfold a_max in *. rewrite IHa. reflexivity. Qed.
Lemma w_max_ty : forall T mx, wide T -> in_ty T (w_max T mx).
Proof. intros T mx W. weights T mx; lia. Qed.
Lemma w_max_den : forall T mx, wide T -> den T mx (w_max T mx) = Worst.
Proof. intros T mx W. weights T mx; zb; auto; lia. Qed.
Lemma w_max_greatest : forall T mx a, wide T -> in_ty T a -> w_less T mx (w_max T mx) a = false.
Proof.
  intros T mx a W Ha. destruct (w_less T mx (w_max T mx) a) eqn:E; auto.
  apply less_den in E; auto using w_max_ty. rewrite w_max_den in E by auto. destruct (den T mx a); destruct E.
Qed.
Lemma a_max_greatest : forall T mx a, wide T -> all_ty T a -> a_less T mx (a_max T mx (length a)) a = false.
Proof.
  intros T mx a W H. unfold a_less, a_max. induction H as [|x a Hx Ha IH]; cbn; auto. rewrite w_max_greatest by auto.
  destruct (w_less T mx x (w_max T mx)); auto.
Qed.
Lemma lex_add : forall a b, lex_lt a b -> forall c ac bc, Forall (fun x => exists z, x = Fin z) c -> zip_add a c ac -> zip_add b c bc ->
  lex_lt ac bc.
Proof.
  induction 1; intros c ac bc Fc A B.
  - inversion A; subst. inversion B.
  - inversion A as [|? yc ? c' r A']; subst. inversion B; subst. inversion Fc as [|? ? (z & ->) Fc']; subst.
    apply ll_here. apply c_add_strict; auto.
  - inversion A as [|? yc ? c' r A']; subst. inversion B; subst. inversion Fc; subst. apply ll_next. eauto.
Qed.

(** ** Vectors *)
Lemma v_zip_length : forall T mx s l r, v_zip T mx s l = Some r -> length r = length l.
Proof.
  intros T mx. induction s as [|x s IH]; intros l r H; cbn in H; [injection H as <-; auto|].
  destruct l as [|y l]; [discriminate|]. destruct (w_add T mx x y); [|discriminate]. cbn in H.
  destruct (v_zip T mx s l) eqn:E; [|discriminate]. injection H as <-. cbn. f_equal. eauto.
Qed.
(** Componentwise sum with missing components zero. *)
Fixpoint vsum (T : ity) (mx : bool) (a b : list Z) : option (list Z) :=
  match a, b with
  | [], _ => Some b
  | _, [] => Some a
  | x :: a', y :: b' => z <- w_add T mx x y ;; r <- vsum T mx a' b' ;; Some (z :: r)
  end.
Lemma v_zip_vsum : forall T mx s l, (length s <= length l)%nat -> v_zip T mx s l = vsum T mx s l.
Proof.
  intros T mx. induction s as [|x s IH]; intros [|y l] L; cbn in *; auto; try lia. rewrite IH by lia. reflexivity.
Qed.
Lemma vsum_comm : forall T mx a b, vsum T mx a b = vsum T mx b a.
Proof. intros T mx. induction a as [|x a IH]; intros [|y b]; cbn; auto. rewrite w_add_comm, IH. reflexivity. Qed.
Lemma v_add_vsum : forall T mx a b, v_add T mx a b = vsum T mx a b.
Proof.
  intros T mx a b. unfold v_add. destruct (Nat.ltb_spec (length b) (length a)).
  - rewrite v_zip_vsum by lia. apply vsum_comm.
  - apply v_zip_vsum. lia.
Qed.
(** No overflow where both vectors have a component. *)
Fixpoint vfits (T : ity) (mx : bool) (a b : list Z) : Prop :=
  match a, b with x :: a', y :: b' => fits T mx x y /\ vfits T mx a' b' | _, _ => True end.
Lemma v_add_ty : forall T mx a b, wide T -> all_ty T a -> all_ty T b -> vfits T mx a b -> exists r, v_add T mx a b = Some r /\ all_ty T r.
Proof.
  intros T mx a b W Ha. rewrite v_add_vsum. revert b. induction Ha as [|x a Hx Ha IH]; intros b Hb F; [exists b; split; [destruct b; reflexivity|auto]|].
  destruct Hb as [|y b Hy Hb]; [eexists; split; [reflexivity|constructor; auto]|]. destruct F as [F1 F]. cbn.
  destruct (add_den T mx x y W Hx Hy F1) as (z & -> & Iz & _). destruct (IH b Hb F) as (r & -> & Ir). cbn. eexists; split; eauto. constructor; auto.
Qed.
Lemma v_add_assoc : forall T mx a b c ab bc, wide T -> all_ty T a -> all_ty T b -> all_ty T c -> vfits T mx a b -> vfits T mx b c ->
  v_add T mx a b = Some ab -> v_add T mx b c = Some bc -> vfits T mx ab c -> vfits T mx a bc -> v_add T mx ab c = v_add T mx a bc.
Proof.
  intros T mx a b c ab bc W Ha Hb Hc. rewrite !v_add_vsum. revert b c ab bc Hb Hc.
  induction Ha as [|x a Hx Ha IH]; intros b c ab bc Hb Hc F1 F2 E1 E2 F3 F4.
  { cbn in E1. injection E1 as <-. cbn. rewrite E2. destruct bc; reflexivity. }
  destruct Hb as [|y b Hy Hb].
  { cbn in E1, E2. injection E1 as <-. assert (c = bc) by (destruct c; congruence). subst. reflexivity. }
  destruct Hc as [|z c Hz Hc].
  { cbn in E2. injection E2 as <-. rewrite E1. rewrite vsum_comm. reflexivity. }
  destruct F1 as [F1 F1']. destruct F2 as [F2 F2']. cbn in E1, E2.
  destruct (w_add T mx x y) as [xy|] eqn:X1; [|discriminate]. cbn in E1. destruct (vsum T mx a b) as [ab'|] eqn:X2; [|discriminate]. injection E1 as <-.
  destruct (w_add T mx y z) as [yz|] eqn:X3; [|discriminate]. cbn in E2. destruct (vsum T mx b c) as [bc'|] eqn:X4; [|discriminate]. injection E2 as <-.
  destruct F3 as [F3 F3']. destruct F4 as [F4 F4']. cbn.
  rewrite (w_add_assoc T mx x y z xy yz), (IH b c ab' bc'); auto.
Qed.

(** The order the comment of line 182 asks for: compare component by component, missing components are zero. *)
Definition at0 (l : list Z) (i : nat) : Z := nth i l 0.
Definition vec_lt (T : ity) (mx : bool) (a b : list Z) : Prop :=
  exists i, (forall j, (j < i)%nat -> at0 a j = at0 b j) /\ w_less T mx (at0 a i) (at0 b i) = true.

Section Loop.
  Context (T : ity) (mx : bool) (W : wide T).
  Lemma zero_ty : in_ty T 0.
  Proof using W. clear mx. pose (mx := false). weights T mx; lia. Qed.
  Lemma at0_ty : forall l i, all_ty T l -> in_ty T (at0 l i).
  Proof using W.
    intros l i H. unfold at0. destruct (le_lt_dec (length l) i) as [L|L]; [rewrite nth_overflow by lia; apply zero_ty|].
    unfold all_ty in H. rewrite Forall_forall in H. apply H. apply nth_In. auto.
  Qed.
  Lemma w_less_neither : forall x y, in_ty T x -> in_ty T y -> w_less T mx x y = false -> w_less T mx y x = false -> x = y.
  Proof using W.
    intros x y Hx Hy A B. apply (den_inj T mx); auto. destruct (c_lt_total (den T mx x) (den T mx y)) as [X|[X|X]]; auto;
    apply less_den in X; auto; congruence.
  Qed.
  Lemma w_less_asym : forall x y, in_ty T x -> in_ty T y -> w_less T mx x y = true -> w_less T mx y x = false.
  Proof using W.
    intros x y Hx Hy A. destruct (w_less T mx y x) eqn:B; auto. apply less_den in A, B; auto. exfalso. eapply c_lt_irrefl, c_lt_trans; eauto.
  Qed.
  Lemma w_less_irrefl : forall x, in_ty T x -> w_less T mx x x = false.
  Proof using W. intros x Hx. destruct (w_less T mx x x) eqn:B; auto. apply less_den in B; auto. exfalso. eapply c_lt_irrefl; eauto. Qed.

  Lemma elem_at : forall l i, (i <= length l)%nat -> (if Nat.eqb i (length l) then Some 0 else nth_error l i) = Some (at0 l i).
  Proof using.
    intros l i L. unfold at0. destruct (Nat.eqb_spec i (length l)); [rewrite nth_overflow by lia; auto|].
    apply nth_error_nth'. lia.
  Qed.
  (** A run of the loop from position i, all earlier components being equal. *)
  Lemma v_loop_spec : forall a b, all_ty T a -> all_ty T b -> forall fuel i r,
    (i <= length a)%nat -> (i <= length b)%nat -> (forall j, (j < i)%nat -> at0 a j = at0 b j) ->
    v_loop (w_less T mx) fuel a b i i (Nat.eqb i (length a)) (Nat.eqb i (length b)) = Some r -> (r = true <-> vec_lt T mx a b).
  Proof using W.
    intros a b Ha Hb fuel. induction fuel as [|fuel IH]; intros i r La Lb Eq; cbn [v_loop].
    - destruct (Nat.eqb_spec i (length a)), (Nat.eqb_spec i (length b)); cbn [andb]; intros E; try discriminate. injection E as <-.
      split; [discriminate|]. intros (k & K1 & K2). destruct (le_lt_dec i k).
      + unfold at0 in K2. rewrite !nth_overflow in K2 by lia. rewrite w_less_irrefl in K2 by apply zero_ty. discriminate.
      + rewrite Eq, w_less_irrefl in K2; auto using at0_ty.
    - destruct (Nat.eqb i (length a) && Nat.eqb i (length b)) eqn:Done.
      { intros E. injection E as <-. apply andb_prop in Done. destruct Done as [D1 D2]. apply Nat.eqb_eq in D1, D2.
        split; [discriminate|]. intros (k & K1 & K2). destruct (le_lt_dec i k).
        - unfold at0 in K2. rewrite !nth_overflow in K2 by lia. rewrite w_less_irrefl in K2 by apply zero_ty. discriminate.
        - rewrite Eq, w_less_irrefl in K2; auto using at0_ty; try discriminate. }
      rewrite !elem_at by auto. cbn [obind]. destruct (w_less T mx (at0 a i) (at0 b i)) eqn:L1.
      { intros E. injection E as <-. split; auto. intros _. exists i. auto. }
      destruct (w_less T mx (at0 b i) (at0 a i)) eqn:L2.
      { intros E. injection E as <-. split; [discriminate|]. intros (k & K1 & K2).
        destruct (lt_eq_lt_dec k i) as [[K| ->]|K].
        - rewrite Eq, w_less_irrefl in K2; auto using at0_ty; try discriminate.
        - congruence.
        - rewrite K1, w_less_irrefl in L2; auto using at0_ty; try discriminate. }
      destruct (Nat.ltb_spec i (length a)), (Nat.ltb_spec i (length b)); cbn [andb]; try discriminate.
      apply IH; try lia. intros j Hj. destruct (Nat.eq_dec j i) as [->|]; [|apply Eq; lia].
      apply w_less_neither; auto using at0_ty.
  Qed.
  Lemma v_loop_defined : forall a b, all_ty T a -> all_ty T b -> forall fuel i,
    (i <= length a)%nat -> (i <= length b)%nat -> (length a + length b < fuel + i)%nat -> (forall j, (j < i)%nat -> at0 a j = at0 b j) ->
    v_loop (w_less T mx) fuel a b i i (Nat.eqb i (length a)) (Nat.eqb i (length b)) <> None <->
    (length a = length b \/ exists k, (k <= length a)%nat /\ (k <= length b)%nat /\ at0 a k <> at0 b k).
  Proof using W.
    intros a b Ha Hb fuel. induction fuel as [|fuel IH]; intros i La Lb Fu Eq; [lia|]. cbn [v_loop].
    destruct (Nat.eqb i (length a) && Nat.eqb i (length b)) eqn:Done.
    { apply andb_prop in Done. destruct Done as [D1 D2]. apply Nat.eqb_eq in D1, D2. split; [left; lia|discriminate]. }
    rewrite !elem_at by auto. cbn [obind]. destruct (w_less T mx (at0 a i) (at0 b i)) eqn:L1.
    { split; [|discriminate]. intros _. right. exists i. ands; auto. intros E. rewrite E, w_less_irrefl in L1; auto using at0_ty; try discriminate. }
    destruct (w_less T mx (at0 b i) (at0 a i)) eqn:L2.
    { split; [|discriminate]. intros _. right. exists i. ands; auto. intros E. rewrite E, w_less_irrefl in L2; auto using at0_ty; try discriminate. }
    assert (X : at0 a i = at0 b i) by (apply w_less_neither; auto using at0_ty).
    destruct (Nat.ltb_spec i (length a)), (Nat.ltb_spec i (length b)); cbn [andb].
    - apply IH; try lia. intros j Hj. destruct (Nat.eq_dec j i) as [->|]; auto. apply Eq; lia.
    - split; [congruence|]. intros [Y|(k & K1 & K2 & K3)]; [lia|]. exfalso. apply K3. destruct (Nat.eq_dec k i) as [->|]; auto. apply Eq; lia.
    - split; [congruence|]. intros [Y|(k & K1 & K2 & K3)]; [lia|]. exfalso. apply K3. destruct (Nat.eq_dec k i) as [->|]; auto. apply Eq; lia.
    - exfalso. replace i with (length a) in Done at 1 by lia. replace i with (length b) in Done by lia. rewrite !Nat.eqb_refl in Done. discriminate.
  Qed.
End Loop.

(** Unsigned, minimising: operator< of std::vector. *)
Lemma lex_add_mono : forall T, wide T -> it_signed T = false -> forall a b c ac bc, all_ty T a -> all_ty T b -> all_ty T c ->
  Forall (fun x => x <> t_max T) a -> Forall (fun x => x <> t_max T) b -> Forall (fun x => x <> t_max T) c ->
  vfits T false a c -> vfits T false b c -> v_add T false a c = Some ac -> v_add T false b c = Some bc ->
  lex Z.ltb a b = true -> lex Z.ltb bc ac = false.
Proof.
  intros T W S a b c ac bc Ha. rewrite !v_add_vsum. revert b c ac bc.
  assert (Sum : forall x y z, in_ty T x -> in_ty T y -> x <> t_max T -> y <> t_max T -> fits T false x y -> w_add T false x y = Some z -> z = x + y).
  { intros x y z Hx Hy Nx Ny F E. destruct (add_den T false x y W Hx Hy F) as (r & R1 & R2 & R3). rewrite R1 in E. injection E as ->.
    unfold den in R3. rewrite S in R3. destruct (Z.eqb_spec x (t_max T)); [contradiction|]. destruct (Z.eqb_spec y (t_max T)); [contradiction|].
    cbn in R3. destruct (Z.eqb_spec z (t_max T)); [discriminate|]. congruence. }
  assert (Pos : forall x, in_ty T x -> 0 <= x) by (intros x Hx; unfold in_ty, t_min in Hx; rewrite S in Hx; lia).
  (* the case a = [] *)
  assert (Base : forall b c bc, all_ty T b -> all_ty T c -> Forall (fun x => x <> t_max T) b -> Forall (fun x => x <> t_max T) c ->
    vfits T false b c -> vsum T false b c = Some bc -> lex Z.ltb bc c = false).
  { induction b as [|y b IH]; intros c bc Hb Hc Nb Nc F E.
    - cbn in E. injection E as <-. clear. induction c; cbn; auto. rewrite Z.ltb_irrefl. auto.
    - destruct c as [|z c]; [cbn in E; injection E as <-; reflexivity|]. destruct F as [F1 F].
      inversion Hb as [|? ? Hy Hb']; subst. inversion Hc as [|? ? Hz Hc']; subst. inversion Nb; subst. inversion Nc; subst. cbn in E.
      destruct (w_add T false y z) as [yz|] eqn:X1; [|discriminate]. cbn in E. destruct (vsum T false b c) as [r|] eqn:X2; [|discriminate].
      injection E as <-. apply Sum in X1; auto. cbn. specialize (Pos y Hy). destruct (Z.ltb_spec yz z); [lia|].
      destruct (Z.ltb_spec z yz); auto. }
  induction Ha as [|x a Hx Ha IH]; intros b c ac bc Hb Hc Na Nb Nc F1 F2 E1 E2 L.
  { cbn in E1. injection E1 as <-. eapply Base; [exact Hb|exact Hc|auto|auto|exact F2|exact E2]. }
  destruct Hb as [|y b Hy Hb]; [discriminate|]. destruct Hc as [|z c Hz Hc].
  { cbn in E1, E2. injection E1 as <-. injection E2 as <-. clear IH Base. revert L. clear. generalize (x :: a), (y :: b). clear.
    induction l as [|x l IH]; intros [|y m]; cbn; auto; try discriminate. destruct (Z.ltb_spec x y), (Z.ltb_spec y x); auto; try lia; discriminate. }
  inversion Na; subst. inversion Nb; subst. inversion Nc; subst. destruct F1 as [F1 F1']. destruct F2 as [F2 F2']. cbn in E1, E2.
  destruct (w_add T false x z) as [xz|] eqn:X1; [|discriminate]. cbn in E1. destruct (vsum T false a c) as [r1|] eqn:X2; [|discriminate]. injection E1 as <-.
  destruct (w_add T false y z) as [yz|] eqn:X3; [|discriminate]. cbn in E2. destruct (vsum T false b c) as [r2|] eqn:X4; [|discriminate]. injection E2 as <-.
  apply Sum in X1, X3; auto. cbn in L |- *. destruct (Z.ltb_spec yz xz), (Z.ltb_spec xz yz), (Z.ltb_spec x y), (Z.ltb_spec y x); auto; try lia; try discriminate.
  eapply (IH b c); [exact Hb|exact Hc|auto|auto|auto|exact F1'|exact F2'|exact X2|exact X4|exact L].
Qed.

(** ** Linear functions *)
Fixpoint lin_val (f : linfun) : Z :=
  match f with LFun v => v | LComb l => fold_right (fun p s => fst p * lin_val (snd p) + s) 0 l end.
(** Non-negative and every (sub)combination is below 2^31. *)
Fixpoint lin_small (bits : Z) (f : linfun) : Prop :=
  match f with
  | LFun v => 0 <= v < 2 ^ bits
  | LComb l => (fix all (l : list (Z * linfun)) := match l with [] => True | p :: l' => 0 <= fst p /\ lin_small bits (snd p) /\ all l' end) l /\ lin_val f < 2 ^ 31
  end.
Lemma linfun_rect' : forall (P : linfun -> Prop), (forall v, P (LFun v)) -> (forall l, Forall (fun p => P (snd p)) l -> P (LComb l)) -> forall f, P f.
Proof.
  intros P H1 H2. fix IH 1. intros [v|l]; [apply H1|]. apply H2. induction l as [|p l IHl]; constructor; auto.
Qed.
Lemma lin_eval_small : forall bits f, 32 <= bits -> lin_small bits f -> lin_eval bits f = lin_val f /\ 0 <= lin_val f.
Proof.
  intros bits f B. induction f as [v|l IH] using linfun_rect'; intros S; [cbn in *; lia|].
  cbn [lin_small] in S. destruct S as [S Lt]. cbn [lin_eval lin_val] in *.
  assert (P32 : 2 ^ 32 <= 2 ^ bits) by (apply Z.pow_le_mono_r; lia).
  assert (G : forall acc, 0 <= acc -> acc + fold_right (fun p s => fst p * lin_val (snd p) + s) 0 l < 2 ^ 31 ->
    fold_left (fun acc p => to_int ((acc mod 2 ^ bits + fst p * lin_eval bits (snd p)) mod 2 ^ bits)) l acc =
      acc + fold_right (fun p s => fst p * lin_val (snd p) + s) 0 l /\ 0 <= fold_right (fun p s => fst p * lin_val (snd p) + s) 0 l).
  { clear Lt. induction IH as [|[c g] l IHg IH' IHl]; intros acc Pa Lt; cbn [fold_left fold_right fst snd] in *; [lia|].
    destruct S as (Pc & Sg & S). destruct (IHg Sg) as [E Pg]. destruct (IHl S 0) as [_ Pr]; [lia| |].
    { assert (0 <= c * lin_val g) by (apply Z.mul_nonneg_nonneg; auto). lia. }
    assert (0 <= c * lin_val g) by (apply Z.mul_nonneg_nonneg; auto).
    rewrite E. rewrite (Z.mod_small acc) by lia. rewrite (Z.mod_small (acc + _)) by lia.
    assert (Ti : to_int (acc + c * lin_val g) = acc + c * lin_val g).
    { unfold to_int. rewrite Z.mod_small; lia. }
    rewrite Ti. destruct (IHl S (acc + c * lin_val g)) as [-> _]; lia. }
  destruct (G 0) as [-> P]; [lia|lia|]. rewrite Z.mod_small by lia. lia.
Qed.
