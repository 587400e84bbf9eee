(** Properties of the built-in weights and weight functions: C29, C57. *)
From Coq Require Import List ZArith Bool Lia.
From Verif Require Import Base BaseFacts WeightModel WeightProof.
Import ListNotations.
Local Open Scope Z_scope.

(** ** C29: integers *)
(** The order is a strict total order on the values of the type, and it is the order of the costs the values stand for. *)
Theorem C29_order : forall T mx, wide T ->
  (forall a, in_ty T a -> w_less T mx a a = false) /\
  (forall a b c, in_ty T a -> in_ty T b -> in_ty T c -> w_less T mx a b = true -> w_less T mx b c = true -> w_less T mx a c = true) /\
  (forall a b, in_ty T a -> in_ty T b -> w_less T mx a b = false -> w_less T mx b a = false -> a = b) /\
  (forall a b, in_ty T a -> in_ty T b -> (w_less T mx a b = true <-> c_lt (den T mx a) (den T mx b))).
Proof.
  intros T mx W. ands.
  - apply w_less_irrefl; auto.
  - intros a b c Ha Hb Hc. rewrite !less_den by auto. apply c_lt_trans.
  - apply w_less_neither; auto.
  - intros. apply less_den; auto.
Qed.
(** Adding is commutative, zero is neutral (both for all values); without overflow adding is that of costs, hence associative and monotone. *)
Theorem C29_add : forall T mx, wide T ->
  (forall a b, w_add T mx a b = w_add T mx b a) /\
  (forall a, in_ty T a -> w_add T mx a 0 = Some a) /\
  (forall a b, in_ty T a -> in_ty T b -> fits T mx a b ->
     exists r, w_add T mx a b = Some r /\ in_ty T r /\ den T mx r = c_add (den T mx a) (den T mx b)) /\
  (forall a b c ab bc, in_ty T a -> in_ty T b -> in_ty T c -> fits T mx a b -> fits T mx b c ->
     w_add T mx a b = Some ab -> w_add T mx b c = Some bc -> fits T mx ab c -> fits T mx a bc -> w_add T mx ab c = w_add T mx a bc) /\
  (forall a b c ac bc, in_ty T a -> in_ty T b -> in_ty T c -> fits T mx a c -> fits T mx b c ->
     w_add T mx a c = Some ac -> w_add T mx b c = Some bc -> w_less T mx a b = true -> w_less T mx bc ac = false).
Proof.
  intros T mx W. ands.
  - apply w_add_comm.
  - intros. apply w_add_zero; auto.
  - intros. apply add_den; auto.
  - intros. eapply (w_add_assoc T mx a b c); eauto.
  - intros a b c ac bc Ha Hb Hc F1 F2 E1 E2 L.
    destruct (add_den T mx a c W Ha Hc F1) as (r1 & X1 & I1 & D1). rewrite X1 in E1. injection E1 as ->.
    destruct (add_den T mx b c W Hb Hc F2) as (r2 & X2 & I2 & D2). rewrite X2 in E2. injection E2 as ->.
    destruct (w_less T mx bc ac) eqn:E; auto. apply less_den in E; auto. apply less_den in L; auto. rewrite D1, D2 in E.
    exfalso. exact (c_add_mono _ _ _ L E).
Qed.
(** Infinity is greatest and absorbing for all values; bottom is least, and absorbing except for infinity where it is not the value 0. *)
Theorem C29_infinity : forall T mx a, wide T -> in_ty T a ->
  w_less T mx (w_max T mx) a = false /\ w_add T mx a (w_max T mx) = Some (w_max T mx) /\
  w_less T mx a (w_bottom T mx) = false /\
  (w_bottom T mx <> 0 -> a <> w_max T mx -> w_add T mx a (w_bottom T mx) = Some (w_bottom T mx)).
Proof.
  intros T mx a W Ha. ands.
  - apply w_max_greatest; auto.
  - apply w_add_max.
  - weights T mx; zb; auto; lia.
  - intros N M. weights T mx; zb; cbn in *; auto; try lia; congruence.
Qed.
(** Overflow: near infinity unsigned sums wrap to small weights, so adding is neither monotone nor associative; signed sums are undefined. *)
Definition u32 := mk_ity false 32.
Definition s32 := mk_ity true 32.
Theorem C29_overflow_refuted :
  ~ (forall T mx a b c ac bc, wide T -> in_ty T a -> in_ty T b -> in_ty T c ->
       w_add T mx a c = Some ac -> w_add T mx b c = Some bc -> w_less T mx a b = true -> w_less T mx bc ac = false) /\
  ~ (forall T mx a b c ab bc, wide T -> in_ty T a -> in_ty T b -> in_ty T c ->
       w_add T mx a b = Some ab -> w_add T mx b c = Some bc -> w_add T mx ab c = w_add T mx a bc) /\
  w_add s32 false (2 ^ 30) (2 ^ 30) = None.
Proof.
  ands; [| |reflexivity].
  - intros H. specialize (H u32 false 1 (2 ^ 32 - 2) 2 3 0).
    assert (X : w_less u32 false 0 3 = false); [|discriminate X].
    apply H; try reflexivity; unfold wide, in_ty; cbn; lia.
  - intros H. specialize (H u32 false 1 (2 ^ 32 - 2) 2 (2 ^ 32 - 1) 0).
    assert (X : w_add u32 false (2 ^ 32 - 1) 2 = w_add u32 false 1 0); [|discriminate X].
    apply H; try reflexivity; unfold wide, in_ty; cbn; lia.
Qed.
Example ex_C29_ints : w_add u32 false 3 4 = Some 7 /\ w_add u32 true 3 4 = Some 7 /\ w_less u32 true 4 3 = true /\
  w_less u32 true (2 ^ 32 - 2) 5 = true /\ w_less u32 true 5 (2 ^ 32 - 1) = true /\ w_add s32 true 5 (- 2 ^ 31) = Some (- 2 ^ 31) /\
  fits u32 false 3 4 /\ wide u32 /\ in_ty u32 3.
Proof. unfold fits, wide, in_ty; cbn. ands; try reflexivity; lia. Qed.
Print Assumptions C29_order.
Print Assumptions C29_add.
Print Assumptions C29_infinity.
Print Assumptions C29_overflow_refuted.

(** ** C29: arrays *)
Theorem C29_array_order : forall T mx, wide T ->
  (forall a, all_ty T a -> a_less T mx a a = false) /\
  (forall a b c, all_ty T a -> all_ty T b -> all_ty T c -> a_less T mx a b = true -> a_less T mx b c = true -> a_less T mx a c = true) /\
  (forall a b, all_ty T a -> all_ty T b -> a_less T mx a b = false -> a_less T mx b a = false -> a = b) /\
  (forall a b, all_ty T a -> all_ty T b -> (a_less T mx a b = true <-> lex_lt (denl T mx a) (denl T mx b))) /\
  (forall a, all_ty T a -> a_less T mx (a_max T mx (length a)) a = false).
Proof.
  intros T mx W. ands.
  - intros a Ha. destruct (a_less T mx a a) eqn:E; auto. apply lex_den in E; auto. exfalso. exact (lex_irrefl _ E).
  - intros a b c Ha Hb Hc. rewrite !lex_den by auto. apply lex_trans.
  - intros a b Ha Hb E1 E2. apply (denl_inj T mx); auto. destruct (lex_total (denl T mx a) (denl T mx b)) as [X|[X|X]]; auto; apply lex_den in X; auto; congruence.
  - intros. apply lex_den; auto.
  - intros. apply a_max_greatest; auto.
Qed.
Theorem C29_array_add : forall T mx, wide T ->
  (forall a b, a_add T mx a b = a_add T mx b a) /\
  (forall a, all_ty T a -> a_add T mx a (a_zero (length a)) = Some a) /\
  (forall a, a_add T mx a (a_max T mx (length a)) = Some (a_max T mx (length a))) /\
  (forall a b c ab bc, all_ty T a -> all_ty T b -> all_ty T c -> afits T mx a b -> afits T mx b c ->
     a_add T mx a b = Some ab -> a_add T mx b c = Some bc -> afits T mx ab c -> afits T mx a bc -> a_add T mx ab c = a_add T mx a bc) /\
  (forall a b c ac bc, all_ty T a -> all_ty T b -> all_ty T c -> afits T mx a c -> afits T mx b c ->
     Forall (fun x => exists z, den T mx x = Fin z) c ->
     a_add T mx a c = Some ac -> a_add T mx b c = Some bc -> a_less T mx a b = true -> a_less T mx ac bc = true).
Proof.
  intros T mx W. ands.
  - apply a_add_comm.
  - intros. apply a_add_zero; auto.
  - apply a_add_max.
  - intros. eapply (a_add_assoc T mx a b c); eauto.
  - intros a b c ac bc Ha Hb Hc F1 F2 Fin E1 E2 L.
    destruct (a_add_den T mx a c W Ha Hc F1) as (r1 & X1 & I1 & D1). rewrite X1 in E1. injection E1 as ->.
    destruct (a_add_den T mx b c W Hb Hc F2) as (r2 & X2 & I2 & D2). rewrite X2 in E2. injection E2 as ->.
    apply lex_den in L; auto. apply lex_den; auto. eapply lex_add; [exact L| |exact D1|exact D2].
    clear -Fin. unfold denl. induction Fin as [|x c (z & E) F IH]; constructor; eauto.
Qed.
(** With an infinite component adding arrays is not monotone: the components after it decide. *)
Theorem C29_array_monotone_refuted :
  ~ (forall T mx a b c ac bc, wide T -> all_ty T a -> all_ty T b -> all_ty T c -> afits T mx a c -> afits T mx b c ->
       a_add T mx a c = Some ac -> a_add T mx b c = Some bc -> a_less T mx a b = true -> a_less T mx bc ac = false).
Proof.
  intros H. specialize (H u32 false [1; 5] [2; 0] [2 ^ 32 - 1; 0] [2 ^ 32 - 1; 5] [2 ^ 32 - 1; 0]).
  assert (X : a_less u32 false [2 ^ 32 - 1; 0] [2 ^ 32 - 1; 5] = false); [|discriminate X].
  apply H; try reflexivity; unfold wide, all_ty, afits; try (repeat apply Forall_cons; try apply Forall_nil; unfold in_ty; cbn; lia);
  try (repeat apply Forall2_cons; try apply Forall2_nil; unfold fits, in_ty; cbn; ands; auto; lia); cbn; lia.
Qed.
Example ex_C29_arrays : a_add u32 false [3; 4] [1; 0] = Some [4; 4] /\ a_less u32 false [3; 9] [4; 0] = true /\ afits u32 false [3; 4] [1; 0] /\ all_ty u32 [3; 4].
Proof.
  ands; try reflexivity; unfold all_ty, afits; [repeat apply Forall2_cons; try apply Forall2_nil; unfold fits, in_ty; cbn; ands; auto; lia|].
  repeat apply Forall_cons; try apply Forall_nil; unfold in_ty; cbn; lia.
Qed.
Print Assumptions C29_array_order.
Print Assumptions C29_array_add.
Print Assumptions C29_array_monotone_refuted.

(** ** C29: vectors *)
Theorem C29_vector_add : forall T mx, wide T ->
  (forall a b, v_add T mx a b = v_add T mx b a) /\
  (forall a, v_add T mx a [] = Some a) /\
  (forall a b c ab bc, all_ty T a -> all_ty T b -> all_ty T c -> vfits T mx a b -> vfits T mx b c ->
     v_add T mx a b = Some ab -> v_add T mx b c = Some bc -> vfits T mx ab c -> vfits T mx a bc -> v_add T mx ab c = v_add T mx a bc) /\
  (it_signed T = false -> forall a b c ac bc, all_ty T a -> all_ty T b -> all_ty T c ->
     Forall (fun x => x <> t_max T) a -> Forall (fun x => x <> t_max T) b -> Forall (fun x => x <> t_max T) c ->
     vfits T false a c -> vfits T false b c -> v_add T false a c = Some ac -> v_add T false b c = Some bc ->
     v_less T false a b = Some true -> v_less T false bc ac = Some false).
Proof.
  intros T mx W. ands.
  - intros a b. rewrite !v_add_vsum. apply vsum_comm.
  - intros a. rewrite v_add_vsum. destruct a; reflexivity.
  - intros. eapply (v_add_assoc T mx a b c); eauto.
  - intros S a b c ac bc Ha Hb Hc Na Nb Nc F1 F2 E1 E2 L. unfold v_less in *. rewrite S in *. cbn in *. f_equal. injection L as L.
    eapply (lex_add_mono T W S a b c); eauto.
Qed.
(** Signed or maximising vectors: where less returns, it compares with missing components as zero. *)
Theorem C29_vector_less : forall T mx a b r, wide T -> mx = true \/ it_signed T = true -> all_ty T a -> all_ty T b ->
  v_less T mx a b = Some r -> (r = true <-> vec_lt T mx a b).
Proof.
  intros T mx a b r W S Ha Hb. unfold v_less. assert (negb mx && negb (it_signed T) = false) as ->.
  { destruct S as [-> | ->]; [reflexivity|destruct mx; reflexivity]. }
  apply v_loop_spec; auto; try lia.
Qed.
(** It returns exactly when the vectors have equal length or differ no later than one position after the end of the shorter one. *)
Theorem C29_vector_less_defined : forall T mx a b, wide T -> mx = true \/ it_signed T = true -> all_ty T a -> all_ty T b ->
  v_less T mx a b <> None <->
  (length a = length b \/ exists k, (k <= length a)%nat /\ (k <= length b)%nat /\ at0 a k <> at0 b k).
Proof.
  intros T mx a b W S Ha Hb. unfold v_less. assert (negb mx && negb (it_signed T) = false) as ->.
  { destruct S as [-> | ->]; [reflexivity|destruct mx; reflexivity]. }
  apply v_loop_defined; auto; try lia.
Qed.
(** So comparing [1] with [1,0] runs past the end of a vector; and infinity is neither absorbing nor greatest for vectors. *)
Theorem C29_vector_refuted :
  ~ (forall T mx a b, wide T -> all_ty T a -> all_ty T b -> v_less T mx a b <> None) /\
  ~ (forall T mx a, wide T -> all_ty T a -> v_add T mx a (v_max T mx) = Some (v_max T mx)) /\
  ~ (forall T a, wide T -> it_signed T = false -> all_ty T a -> v_less T false (v_max T false) a = Some false) /\
  ~ (forall T a b, wide T -> it_signed T = false -> all_ty T a -> all_ty T b -> v_less T false a b = Some true -> vec_lt T false a b).
Proof.
  assert (W : forall sg, wide (mk_ity sg 32)) by (intros; unfold wide; cbn; lia). ands.
  - intros H. apply (H s32 false [1] [1; 0] (W true)); try reflexivity; repeat apply Forall_cons; try apply Forall_nil; unfold in_ty; cbn; lia.
  - intros H. specialize (H u32 false [0; 1]). cbn in H. assert (X : all_ty u32 [0; 1]).
    { repeat apply Forall_cons; try apply Forall_nil; unfold in_ty; cbn; lia. }
    specialize (H (W false) X). discriminate.
  - intros H. specialize (H u32 [2 ^ 32 - 1; 1] (W false) eq_refl). assert (X : all_ty u32 [2 ^ 32 - 1; 1]).
    { repeat apply Forall_cons; try apply Forall_nil; unfold in_ty; cbn; lia. }
    specialize (H X). discriminate.
  - intros H. destruct (H u32 [] [0] (W false) eq_refl) as (i & _ & L).
    + constructor.
    + repeat apply Forall_cons; try apply Forall_nil; unfold in_ty; cbn; lia.
    + reflexivity.
    + unfold at0 in L. destruct i as [|[|i]]; discriminate.
Qed.
Example ex_C29_vectors : v_add u32 false [1; 2] [5] = Some [6; 2] /\ v_less u32 false [1; 2] [1; 3] = Some true /\
  v_less s32 true [1; 2] [1; 3] = Some false /\ v_less s32 false [1] [1; 3] = Some true /\ v_less s32 false [1] [1; 0] = None.
Proof. ands; reflexivity. Qed.
Print Assumptions C29_vector_add.
Print Assumptions C29_vector_less.
Print Assumptions C29_vector_less_defined.
Print Assumptions C29_vector_refuted.

(** ** C57: weight functions *)
Theorem C57_linear_function : forall bits f, 32 <= bits -> lin_small bits f -> lin_eval bits f = lin_val f.
Proof. intros bits f B S. apply lin_eval_small; auto. Qed.
Theorem C57_ordered_function : forall bits fs, 32 <= bits -> Forall (lin_small bits) fs -> ord_eval bits fs = map lin_val fs.
Proof. intros bits fs B S. unfold ord_eval. induction S; cbn; auto. rewrite IHS. f_equal. apply lin_eval_small; auto. Qed.
(** From 2^31 on, the int accumulator changes the value although the type has room for it. *)
Theorem C57_linear_function_refuted :
  ~ (forall f, 0 <= lin_val f < 2 ^ 64 -> lin_eval 64 f = lin_val f).
Proof.
  intros H. specialize (H (LComb [(1, LFun (2 ^ 31))])). assert (X : lin_eval 64 (LComb [(1, LFun (2 ^ 31))]) = 2 ^ 31).
  { rewrite H; cbn; lia. }
  discriminate X.
Qed.
Definition ex_lin := LComb [(2, LFun 3); (5, LComb [(1, LFun 4); (3, LFun 1)])].
Example ex_C57 : lin_small 32 ex_lin /\ lin_eval 32 ex_lin = 41 /\ ord_eval 32 [ex_lin; LFun 7] = [41; 7].
Proof. ands; try reflexivity. cbn. lia. Qed.
Print Assumptions C57_linear_function.
Print Assumptions C57_ordered_function.
Print Assumptions C57_linear_function_refuted.
