(** Properties of the abstraction mappings and refinements: C41, C42, C43. *)
From Coq Require Import List Arith Lia Bool Permutation Sorted.
From Verif Require Import Base BaseFacts SpecFacts PdaModel PdaProof ContainersModel ContainersProof TrieModel RefineModel MappingProof RefineProof PairProof ExHelp ConstructProof.
Import ListNotations.

(** *** C41: the mapping is a partition *)
(** What exists() and get_concrete_values() show: ids are below size(), and the concrete values of an id are exactly the
    values with that id, without duplicates. *)
Definition is_partition (m : rmap) (values : list nat) : Prop :=
  (forall x, In x values <-> exists a, rm_exists m x = Some a) /\
  (forall x a, rm_exists m x = Some a -> a < rm_size m) /\
  (forall a, exists l, rm_concrete m a = Some l /\ NoDup l /\ forall x, In x l <-> rm_exists m x = Some a).
Lemma RI_partition : forall m values, RI m -> (forall x, In x (keys m) <-> In x values) -> is_partition m values.
Proof.
  intros m values R K. unfold is_partition. split; [|split].
  - intros x. rewrite <- K. symmetry. apply rm_exists_In.
  - intros x a H. apply rm_exists_iff in H; [|apply ri_keys; auto]. destruct H as (k & _ & H). apply (ri_lt m R k); auto.
  - intros a. apply rm_concrete_spec; auto.
Qed.

Lemma am_insert_abs_prefix : forall f m x ig m' b v, am_insert f m x ig = Some (m', (b, v)) -> forall a w, nth_error (am_abs m) a = Some w -> nth_error (am_abs m') a = Some w.
Proof.
  assert (T: forall l k l' b i a w, ts_insert Nat.eqb l k = (l', (b, i)) -> nth_error l a = Some w -> nth_error l' a = Some w).
  { intros l k l' b i a w H E. unfold ts_insert in H. destruct (tr_index Nat.eqb l k); injection H as <- _ _; auto.
    rewrite nth_error_app1; auto. eapply nth_error_lt; eauto. }
  intros f m x ig m' b v H a w E. unfold am_insert in H.
  destruct (if ig then (rm_map (am_rm m), (true, 0)) else tm_insert Nat.eqb (rm_map (am_rm m)) x 0) as [mp [fresh kid]]. destruct fresh; cbn [negb] in H.
  - destruct (ts_insert Nat.eqb (am_abs m) (f x)) as [abs [fv w']] eqn:Et. apply (T _ _ _ _ _ a w Et) in E. destruct ig.
    + injection H as <- _ _. auto.
    + destruct (tm_set mp kid w'); [|discriminate]. cbn [obind] in H. destruct (nth_error (resize_ids (rm_ids (am_rm m)) w') w'); [|discriminate].
      injection H as <- _ _. auto.
  - destruct (tm_data mp kid); [|discriminate]. injection H as <- _ _. auto.
Qed.
(** RI is the invariant of the representation (buckets and data agree). *)
(** After any calls of insert and insert_abstract two inserted values have the same id iff the map function says so. *)
Theorem C41_insert : forall f cs, exists m, am_run f cs = Some m /\ RI (am_rm m) /\ is_partition (am_rm m) (concretes cs) /\
  (forall x y, In x (concretes cs) -> In y (concretes cs) -> (rm_exists (am_rm m) x = rm_exists (am_rm m) y <-> f x = f y)) /\
  (forall x, am_exists f m x false = rm_exists (am_rm m) x) /\
  (forall x, (exists a, am_exists f m x true = Some a) <-> In (f x) (abstracts f cs)) /\
  rm_size (am_rm m) = length (nodup Nat.eq_dec (abstracts f cs)) /\
  (forall x ig, exists m' b v, am_insert f m x ig = Some (m', (b, v)) /\ am_exists f m' x ig = Some v /\ (b = true <-> ~ In (f x) (abstracts f cs)) /\
     (forall y a, rm_exists (am_rm m) y = Some a -> rm_exists (am_rm m') y = Some a)).
Proof.
  intros f cs. destruct (am_run_spec f cs) as (m & E & A). exists m. split; auto.
  assert (Hf: forall m xs vs, AI f m xs vs -> forall x a, rm_exists (am_rm m) x = Some a -> nth_error (am_abs m) a = Some (f x)).
  { clear. intros m xs vs A x a H. apply rm_exists_iff in H; [|apply ri_keys, (ai_ri _ _ _ _ A)]. destruct H as (k & H1 & H2). eapply (ai_fun _ _ _ _ A); eauto. }
  assert (Hex: forall m xs vs, AI f m xs vs -> forall x, am_exists f m x false = rm_exists (am_rm m) x).
  { clear - Hf. intros m xs vs A x. unfold am_exists. destruct (rm_exists (am_rm m) x) as [a|] eqn:Ex.
    - pose proof (Hf _ _ _ A _ _ Ex) as Ha. unfold rm_exists in Ex. destruct (tm_exists Nat.eqb (rm_map (am_rm m)) x) as [k|]; [|discriminate]. cbn [obind] in *.
      apply (tr_index_nth _ _ Nat_eqb_ok); auto. apply (ai_abs _ _ _ _ A).
    - unfold rm_exists in Ex. destruct (tm_exists Nat.eqb (rm_map (am_rm m)) x) as [k|] eqn:Ek; auto. exfalso. cbn [obind] in Ex.
      assert (H: exists a, rm_exists (am_rm m) x = Some a).
      { apply rm_exists_In. apply (tr_index_Some _ _ Nat_eqb_ok) in Ek. eapply nth_error_In; eauto. }
      destruct H as [a H]. unfold rm_exists in H. rewrite Ek in H. cbn [obind] in H. congruence. }
  assert (Hex': forall m xs vs, AI f m xs vs -> forall x a, am_exists f m x true = Some a <-> nth_error (am_abs m) a = Some (f x)).
  { clear. intros m xs vs A x a. unfold am_exists. apply (tr_index_iff _ _ Nat_eqb_ok). apply (ai_abs _ _ _ _ A). }
  split; [apply (ai_ri _ _ _ _ A)|]. split; [apply RI_partition; [apply (ai_ri _ _ _ _ A)|apply (ai_keys _ _ _ _ A)]|]. split; [|split; [|split; [|split]]].
  - intros x y Hx Hy. apply (ai_keys _ _ _ _ A) in Hx, Hy. apply rm_exists_In in Hx, Hy. destruct Hx as [a Ha], Hy as [b Hb].
    pose proof (Hf _ _ _ A _ _ Ha) as Fa. pose proof (Hf _ _ _ A _ _ Hb) as Fb. rewrite Ha, Hb. split.
    + intros H. injection H as <-. congruence.
    + intros H. f_equal. apply (proj1 (NoDup_nth_error _) (ai_abs _ _ _ _ A)); [eapply nth_error_lt; eauto|]. congruence.
  - apply (Hex _ _ _ A).
  - intros x. rewrite <- (ai_vals _ _ _ _ A). split.
    + intros [a H]. apply (Hex' _ _ _ A) in H. eapply nth_error_In; eauto.
    + intros H. apply In_nth_error in H. destruct H as [a H]. exists a. apply (Hex' _ _ _ A). auto.
  - rewrite (ai_size _ _ _ _ A). apply Nat.le_antisymm; apply NoDup_incl_length; try apply NoDup_nodup; try apply (ai_abs _ _ _ _ A); intros v Hv.
    + apply nodup_In, (ai_vals _ _ _ _ A). auto.
    + apply (ai_vals _ _ _ _ A). apply nodup_In in Hv. auto.
  - intros x ig. destruct (insert_spec f m _ _ x ig A) as (m' & b & v & Ei & A' & H1 & H2 & H3). exists m', b, v. split; [auto|split; [|split; [auto|]]].
    + destruct ig; [apply (Hex' _ _ _ A'); auto|]. rewrite (Hex _ _ _ A'). auto.
    + intros y a Hy. pose proof (Hf _ _ _ A _ _ Hy) as Fy. assert (Hy': exists a', rm_exists (am_rm m') y = Some a').
      { apply rm_exists_In, (ai_keys _ _ _ _ A'), in_or_app. left. apply (ai_keys _ _ _ _ A), rm_exists_In. eauto. }
      destruct Hy' as [a' Hy']. rewrite Hy'. f_equal. pose proof (Hf _ _ _ A' _ _ Hy') as Fy'.
      apply (proj1 (NoDup_nth_error _) (ai_abs _ _ _ _ A')); [eapply nth_error_lt; eauto|]. rewrite Fy'. symmetry.
      apply (am_insert_abs_prefix f m x ig m' b v Ei). auto.
Qed.
Print Assumptions C41_insert.

(** RefinementMapping: any refinements that fit (disjoint non-empty sets of values of the class to be split). *)
Definition fits (m : rmap) (r : refinement) : Prop :=
  NoDup (concat (rf_parts r)) /\ (forall p, In p (rf_parts r) -> p <> []) /\ (forall x, In x (concat (rf_parts r)) -> rm_exists m x = Some (rf_id r)).
Fixpoint fits_run (m : rmap) (rs : list refinement) : Prop :=
  match rs with [] => True | r :: rs' => fits m r /\ forall m', rm_refine m r = Some m' -> fits_run m' rs' end.
Definition rm_run (m : rmap) (rs : list refinement) : option rmap := ofold rm_refine rs m.
(** One refinement: nothing fails; only the class rf_id r is split; its parts become different classes; values of other
    classes and values in no part keep their id. *)
Theorem C41_refine : forall m values r, RI m -> is_partition m values -> fits m r -> exists m', rm_refine m r = Some m' /\ RI m' /\ is_partition m' values /\
  rm_size m <= rm_size m' /\
  (forall x y, rm_exists m x <> rm_exists m y -> rm_exists m' x <> rm_exists m' y) /\
  (forall x y, separated (rf_parts r) x y -> rm_exists m' x <> rm_exists m' y) /\
  (forall j x y, at_part (rf_parts r) j x -> at_part (rf_parts r) j y -> rm_exists m' x = rm_exists m' y) /\
  (forall x, ~ In x (concat (rf_parts r)) -> rm_exists m' x = rm_exists m x) /\
  (forall x a, rm_exists m' x = Some a -> rm_exists m x = Some a \/ (rm_exists m x = Some (rf_id r) /\ rm_size m <= a)) /\
  ((forall a, a < rm_size m -> exists x, rm_exists m x = Some a) -> forall a, a < rm_size m' -> exists x, rm_exists m' x = Some a).
Proof.
  intros m values r R P F. destruct (refine_all m r R F) as (m' & E & R' & S & H1 & H2 & H3 & H4 & H5 & H6 & H7). exists m'.
  split; [auto|]. split; [auto|]. split; [|tauto]. apply RI_partition; auto. intros x. destruct P as (P & _). rewrite P, <- H5. symmetry. apply rm_exists_In.
Qed.
Print Assumptions C41_refine.
Lemma run_spec : forall rs m values, RI m -> is_partition m values -> (forall a, a < rm_size m -> exists x, rm_exists m x = Some a) -> fits_run m rs ->
  exists m', rm_run m rs = Some m' /\ RI m' /\ is_partition m' values /\ (forall x y, rm_exists m x <> rm_exists m y -> rm_exists m' x <> rm_exists m' y) /\
    (forall a, a < rm_size m' -> exists x, rm_exists m' x = Some a).
Proof.
  induction rs as [|r rs IH]; intros m values R P D F.
  - exists m. cbn. repeat (split; auto).
  - destruct F as [F1 F2]. destruct (C41_refine m values r R P F1) as (m1 & E & R1 & P1 & _ & H1 & _ & _ & _ & _ & H7).
    destruct (IH m1 values R1 P1 (H7 D) (F2 m1 E)) as (m' & E' & R' & P' & H' & D'). exists m'. unfold rm_run. cbn [ofold]. rewrite E. cbn [obind]. repeat (split; auto).
Qed.
(** A whole history: a RefinementMapping made from an AbstractionMapping (the constructor asserts that every abstract
    value has a concrete one) and refined any number of times stays a partition in non-empty classes, never merges, and so
    never puts two values together that the map function separates. *)
Theorem C41_partition_history : forall f cs rs m, am_run f cs = Some m ->
  ((forall v, In v (abstracts f cs) -> exists x, In x (concretes cs) /\ f x = v) <-> exists m0, rm_of m = Some m0) /\
  (forall m0, rm_of m = Some m0 -> fits_run m0 rs -> exists m', rm_run m0 rs = Some m' /\ is_partition m' (concretes cs) /\
     (forall a, a < rm_size m' -> exists x, rm_exists m' x = Some a) /\
     (forall x y, In x (concretes cs) -> In y (concretes cs) -> rm_exists m' x = rm_exists m' y -> f x = f y)).
Proof.
  intros f cs rs m E. destruct (am_run_spec f cs) as (m1 & E1 & A). rewrite E in E1. injection E1 as <-.
  assert (Hd: (forall v, In v (abstracts f cs) -> exists x, In x (concretes cs) /\ f x = v) <-> forall a, a < rm_size (am_rm m) -> exists x, rm_exists (am_rm m) x = Some a).
  { pose proof (ai_ri _ _ _ _ A) as R. split.
    - intros H a La. rewrite (ai_size _ _ _ _ A) in La. destruct (nth_error_ex _ _ _ La) as [v Hv].
      destruct (H v) as (x & Hx & Hf); [apply (ai_vals _ _ _ _ A); eapply nth_error_In; eauto|].
      apply (ai_keys _ _ _ _ A), rm_exists_In in Hx. destruct Hx as [b Hb]. exists x. rewrite Hb. f_equal.
      apply rm_exists_iff in Hb; [|apply ri_keys; auto]. destruct Hb as (k & K1 & K2). pose proof (ai_fun _ _ _ _ A k x b K1 K2) as Hb.
      symmetry. apply (proj1 (NoDup_nth_error _) (ai_abs _ _ _ _ A)); [auto|]. congruence.
    - intros H v Hv. apply (ai_vals _ _ _ _ A) in Hv. apply In_nth_error in Hv. destruct Hv as [a Ha].
      destruct (H a) as [x Hx]; [rewrite (ai_size _ _ _ _ A); eapply nth_error_lt; eauto|]. exists x.
      split; [apply (ai_keys _ _ _ _ A), rm_exists_In; eauto|]. apply rm_exists_iff in Hx; [|apply ri_keys; auto]. destruct Hx as (k & K1 & K2).
      pose proof (ai_fun _ _ _ _ A k x a K1 K2). congruence. }
  assert (Ho: (forall a, a < rm_size (am_rm m) -> exists x, rm_exists (am_rm m) x = Some a) <-> exists m0, rm_of m = Some m0).
  { unfold rm_of. pose proof (ai_ri _ _ _ _ A) as R. destruct (forallb (fun b => negb (is_nil b)) (rm_ids (am_rm m))) eqn:Ef.
    - split; [eauto|]. intros _ a La. unfold rm_size in La. destruct (nth_error_ex _ _ _ La) as [ks Hks].
      rewrite forallb_forall in Ef. pose proof (Ef ks (nth_error_In _ _ Hks)) as Hn. destruct ks as [|k ks]; [discriminate|].
      destruct (ri_bucket _ R _ _ Hks) as [_ Hk]. pose proof (proj1 (Hk k) (or_introl eq_refl)) as Hd'.
      assert (Lk: k < length (rm_map (am_rm m))) by (apply tm_data_lt; eauto).
      destruct (nth_error_ex _ (keys (am_rm m)) k) as [x Hx]; [rewrite map_length; auto|]. exists x. apply rm_exists_iff; [apply ri_keys; auto|]. eauto.
    - split; [|intros [m0 H]; discriminate]. intros H. exfalso. apply not_true_iff_false in Ef. apply Ef. apply forallb_forall. intros ks Hks.
      apply In_nth_error in Hks. destruct Hks as [a Ha]. destruct (H a) as [x Hx]; [eapply nth_error_lt; eauto|].
      apply rm_exists_iff in Hx; [|apply ri_keys; auto]. destruct Hx as (k & _ & K2). destruct (ri_bucket _ R _ _ Ha) as [_ Hk].
      destruct ks; auto. apply Hk in K2. destruct K2. }
  split; [rewrite Hd; auto|]. intros m0 E0 F.
  assert (D: forall a, a < rm_size (am_rm m) -> exists x, rm_exists (am_rm m) x = Some a) by (apply Ho; eauto).
  unfold rm_of in E0. destruct (forallb _ _); [|discriminate]. injection E0 as <-.
  destruct (C41_insert f cs) as (m1 & E1 & _ & P & Hxy & _). rewrite E in E1. injection E1 as <-.
  destruct (run_spec rs (am_rm m) (concretes cs) (ai_ri _ _ _ _ A) P D F) as (m' & E' & R' & P' & H' & D'). exists m'. split; [auto|]. split; [auto|]. split; [auto|].
  intros x y Hx Hy Exy. apply Hxy; auto. destruct (rm_exists (am_rm m) x) as [a|] eqn:Ex, (rm_exists (am_rm m) y) as [b|] eqn:Ey; auto.
  - destruct (Nat.eq_dec a b) as [->|N]; auto. exfalso. apply (H' x y); auto. rewrite Ex, Ey. congruence.
  - exfalso. apply (H' x y); auto. rewrite Ex, Ey. discriminate.
  - exfalso. apply (H' x y); auto. rewrite Ex, Ey. discriminate.
Qed.
Print Assumptions C41_partition_history.
(** Numbers modulo 3; then the class of 0 is split in {0,6} and {3}, leaving out 9. *)
Definition c41_calls : list acall := [AInsert 4 false; AInsert 0 false; AInsert 3 false; AInsert 5 false; AInsert 6 false; AInsert 9 false; AInsert 4 true].
Definition c41_ref : refinement := mk_ref [[3]; [0; 6]] 1.
Example C41_example : exists m m0 m', am_run (fun x => x mod 3) c41_calls = Some m /\ rm_of m = Some m0 /\ fits_run m0 [c41_ref] /\ rm_run m0 [c41_ref] = Some m' /\
  map (rm_exists m0) [0; 3; 6; 9; 4; 5; 7] = [Some 1; Some 1; Some 1; Some 1; Some 0; Some 2; None] /\
  map (rm_exists m') [0; 3; 6; 9; 4; 5; 7] = [Some 1; Some 3; Some 1; Some 1; Some 0; Some 2; None].
Proof.
  eexists _, _, _. split; [vm_compute; reflexivity|]. split; [vm_compute; reflexivity|]. split; [|split; [vm_compute; reflexivity|split; vm_compute; reflexivity]].
  split; [|intros; exact Logic.I]. split; [|split].
  - cbn. repeat constructor; cbn; intuition discriminate.
  - intros p [<-|[<-|[]]]; discriminate.
  - intros x [<-|[<-|[<-|[]]]]; reflexivity.
Qed.

(** *** C42: combining refinements *)
(** What combine and the constructors need and give: at least two sorted non-empty disjoint parts. *)
Definition proper (r : refinement) : Prop :=
  (forall p, In p (rf_parts r) -> StronglySorted lt p /\ p <> []) /\ NoDup (concat (rf_parts r)) /\ 2 <= length (rf_parts r).
(** combine of any refinement with one made of two parts (the only ones the library combines): it separates exactly what
    one of the two separates, plus possibly elements that only one of them mentions. *)
Theorem C42_combine : forall r s, proper r -> proper s -> length (rf_parts s) = 2 -> rf_id r = rf_id s ->
  exists t, ref_combine r s = Some t /\ proper t /\ rf_id t = rf_id r /\
    (forall x, In x (concat (rf_parts t)) <-> In x (concat (rf_parts r)) \/ In x (concat (rf_parts s))) /\
    (forall x y, separated (rf_parts r) x y \/ separated (rf_parts s) x y -> separated (rf_parts t) x y) /\
    (forall k x y, at_part (rf_parts r) k x -> at_part (rf_parts r) k y ->
      (forall o, at_part (rf_parts s) o x <-> at_part (rf_parts s) o y) -> forall j, at_part (rf_parts t) j x -> at_part (rf_parts t) j y).
Proof. exact combine_spec. Qed.
Print Assumptions C42_combine.
Theorem C42_two_parts : forall a b id, a <> [] -> b <> [] -> NoDup (a ++ b) -> exists r, ref_two a b id = Some r /\ proper r /\ rf_id r = id /\
  length (rf_parts r) = 2 /\ (forall x y, In x a -> In y b -> separated (rf_parts r) x y) /\ (forall x, In x (concat (rf_parts r)) <-> In x a \/ In x b).
Proof. exact ref_two_spec. Qed.
Print Assumptions C42_two_parts.
(** The constructor's assertions hold exactly for two non-empty disjoint vectors. *)
Theorem C42_two_parts_defined : forall a b id, (exists r, ref_two a b id = Some r) <-> a <> [] /\ b <> [] /\ forall x, In x a -> ~ In x b.
Proof.
  intros a b id. unfold ref_two. destruct a as [|x a]; [cbn; split; [intros [r H]; discriminate|intros [H _]; congruence]|].
  destruct b as [|y b]; [cbn; split; [intros [r H]; discriminate|intros (_ & H & _); congruence]|]. cbn [is_nil orb].
  destruct (disj_spec (sort_nat (x :: a)) (sort_nat (y :: b))) as (r & E & Hr); try apply sort_nat_sorted. rewrite E. cbn [obind]. setoid_rewrite sort_nat_In in Hr. destruct r.
  - split; [intros _; split; [discriminate|split; [discriminate|apply Hr; auto]]|eauto].
  - split; [intros [r H]; discriminate|]. intros (_ & _ & H). apply Hr in H. discriminate.
Qed.
Print Assumptions C42_two_parts_defined.
(** HeaderRefinement: combining any sequence of two-part refinements and refining a mapping by the result separates every
    pair that one of them separates. *)
Lemma run_ids : forall h m, RI m -> NoDup (map rf_id h) -> (forall t, In t h -> proper t) ->
  (forall t x, In t h -> In x (concat (rf_parts t)) -> rm_exists m x = Some (rf_id t)) ->
  exists m', rm_run m h = Some m' /\ RI m' /\ (forall x y, rm_exists m x <> rm_exists m y -> rm_exists m' x <> rm_exists m' y) /\
    (forall t x y, In t h -> separated (rf_parts t) x y -> rm_exists m' x <> rm_exists m' y).
Proof.
  induction h as [|t h IH]; intros m R N Ok Hc.
  - exists m. split; [reflexivity|]. split; [auto|]. split; [auto|]. intros t x y [].
  - destruct (Ok t (or_introl eq_refl)) as (O1 & O2 & O3).
    destruct (refine_all m t R) as (m1 & E & R1 & _ & H1 & H2 & _ & H4 & _).
    { split; [auto|]. split; [intros p Hp; apply O1; auto|]. intros x Hx. apply (Hc t); cbn; auto. }
    inversion N; subst. destruct (IH m1 R1) as (m' & E' & R' & H' & Hs'); auto.
    + intros t' Ht'. apply Ok. cbn. auto.
    + intros t' x Ht' Hx. pose proof (Hc t' x (or_intror Ht') Hx) as Hx'. rewrite H4; auto. intros Hx''.
      rewrite (Hc t x (or_introl eq_refl) Hx'') in Hx'. injection Hx' as Hx'. apply H3. rewrite Hx'. apply in_map. auto.
    + exists m'. unfold rm_run. cbn [ofold]. rewrite E. cbn [obind]. split; [auto|]. split; [auto|]. split; [auto|].
      intros t' x y [<-|Ht'] Hs; [apply H', H2; auto|eapply Hs'; eauto].
Qed.
Theorem C42_header : forall rs m, RI m -> (forall r, In r rs -> proper r /\ length (rf_parts r) = 2) ->
  (forall r x, In r rs -> In x (concat (rf_parts r)) -> rm_exists m x = Some (rf_id r)) ->
  exists h m', header_run rs = Some h /\ rm_run m h = Some m' /\
    (forall r x y, In r rs -> separated (rf_parts r) x y -> rm_exists m' x <> rm_exists m' y) /\
    (forall x y, rm_exists m x <> rm_exists m y -> rm_exists m' x <> rm_exists m' y).
Proof.
  intros rs m R Ok Hc. destruct (header_run_spec rs Ok) as (h & E & B).
  destruct (run_ids h m R (hb_ids _ _ B) (hb_ok _ _ B)) as (m' & E' & R' & H1 & H2).
  - intros t x Ht Hx. destruct (hb_from _ _ B t x Ht Hx) as (r & Hr & <- & Hx'). eauto.
  - exists h, m'. split; [auto|]. split; [auto|]. split; [|auto].
    intros r x y Hr Hs. destruct (hb_sep _ _ B r x y Hr Hs) as (t & Ht & _ & Hs'). eauto.
Qed.
Print Assumptions C42_header.
Definition c42_r : refinement := mk_ref [[1; 4; 7]; [2; 5]] 0.
Definition c42_s : refinement := mk_ref [[4; 5]; [2; 8]] 0.
Example C42_example : proper c42_r /\ proper c42_s /\ option_map rf_parts (ref_combine c42_r c42_s) = Some [[1; 4; 7]; [5]; [2]; [8]].
Proof.
  assert (H: forall r, Forall (fun p => ssortedb p = true /\ p <> []) (rf_parts r) -> ssortedb (sort_nat (concat (rf_parts r))) = true -> 2 <= length (rf_parts r) -> proper r).
  { intros r F S L. rewrite Forall_forall in F. split; [|split; auto].
    - intros p Hp. destruct (F p Hp). split; auto. apply ssortedb_ok. auto.
    - apply (Permutation_NoDup (sort_nat_perm _)), ssorted_NoDup, ssortedb_ok. auto. }
  split; [|split; [|vm_compute; reflexivity]]; apply H; cbn; auto; repeat (constructor; [split; [reflexivity|discriminate]|]); constructor.
Qed.

(** *** C43: refinements of pairs *)
Theorem C43_make_pair_refinement : forall ordB X Y Yw A_id B_id,
  (forall l, Permutation (ordB l) l) -> X <> [] -> (Y <> [] \/ Yw <> []) -> StronglySorted lt Yw ->
  (forall p, In p X -> ~ In p Y) -> (forall p, In p X \/ In p Y -> ~ In (fst p) Yw) ->
  exists ra rb, pair_refine ordB X Y Yw A_id B_id = Some (ra, rb) /\ rf_id ra = A_id /\ rf_id rb = B_id /\
    forall ma mb, RI ma -> RI mb ->
      (forall a, (exists b, In (a, b) X \/ In (a, b) Y) \/ In a Yw -> rm_exists ma a = Some A_id) ->
      (forall b, (exists a, In (a, b) X \/ In (a, b) Y) -> rm_exists mb b = Some B_id) ->
      exists ma' mb', rm_refine ma ra = Some ma' /\ rm_refine mb rb = Some mb' /\
        (forall a b a' b', In (a, b) X -> In (a', b') Y -> ~ (rm_exists ma' a = rm_exists ma' a' /\ rm_exists mb' b = rm_exists mb' b')) /\
        (forall a b a', In (a, b) X -> In a' Yw -> rm_exists ma' a <> rm_exists ma' a').
Proof.
  intros ordB X Y Yw A_id B_id Ho HX HY Sw HXY HYw.
  destruct (pair_spec ordB X Y Yw A_id B_id Ho HX HY (ssorted_le _ Sw) HXY HYw) as (ra & rb & E & I1 & I2 & C1 & C2 & N1 & N2 & Ne & S1 & S2).
  exists ra, rb. split; [auto|]. split; [auto|]. split; [auto|]. intros ma mb Ra Rb Ha Hb.
  destruct (refine_all ma ra Ra) as (ma' & Ea & _ & _ & _ & Sa & _).
  { split; [apply N1, ssorted_NoDup; auto|]. split; [intros p Hp; apply Ne; auto|]. intros x Hx. rewrite I1. apply Ha, C1. auto. }
  destruct (refine_all mb rb Rb) as (mb' & Eb & _ & _ & _ & Sb & _).
  { split; [apply N2|]. split; [intros p Hp; apply Ne; auto|]. intros x Hx. rewrite I2. apply Hb, C2. auto. }
  exists ma', mb'. split; [auto|]. split; [auto|]. split.
  - intros a b a' b' H1 H2 [E1 E2]. destruct (S1 a b a' b' H1 H2) as [H|H]; [apply (Sa a a')|apply (Sb b b')]; auto.
  - intros a b a' H1 H2. apply Sa. eapply S2; eauto.
Qed.
Print Assumptions C43_make_pair_refinement.
(** make_simple_pair_refinement separates one pair of X from one pair of Y (or one wildcard value), not all. *)
Theorem C43_make_simple_pair_refinement_partial : forall X Y Yw A_id B_id,
  X <> [] -> (Y <> [] \/ Yw <> []) -> (forall p, In p X -> ~ In p Y) -> (forall p, In p X \/ In p Y -> ~ In (fst p) Yw) ->
  exists ra rb, simple_pair_refine X Y Yw A_id B_id = Some (ra, rb) /\ rf_id ra = A_id /\ rf_id rb = B_id /\
    forall ma mb, RI ma -> RI mb ->
      (forall a, (exists b, In (a, b) X \/ In (a, b) Y) \/ In a Yw -> rm_exists ma a = Some A_id) ->
      (forall b, (exists a, In (a, b) X \/ In (a, b) Y) -> rm_exists mb b = Some B_id) ->
      exists ma' mb', rm_refine ma ra = Some ma' /\ rm_refine mb rb = Some mb' /\
        exists a b, In (a, b) X /\
          ((exists a' b', In (a', b') Y /\ ~ (rm_exists ma' a = rm_exists ma' a' /\ rm_exists mb' b = rm_exists mb' b')) \/
           (exists a', In a' Yw /\ rm_exists ma' a <> rm_exists ma' a')).
Proof.
  intros X Y Yw A_id B_id HX HY HXY HYw.
  destruct (simple_spec X Y Yw A_id B_id HX HY HXY HYw) as (ra & rb & E & I1 & I2 & C1 & C2 & N1 & N2 & Ne & a & b & Hab & S).
  exists ra, rb. split; [auto|]. split; [auto|]. split; [auto|]. intros ma mb Ra Rb Ha Hb.
  destruct (refine_all ma ra Ra) as (ma' & Ea & _ & _ & _ & Sa & _).
  { split; [apply N1|]. split; [intros p Hp; apply Ne; auto|]. intros x Hx. rewrite I1. apply Ha, C1. auto. }
  destruct (refine_all mb rb Rb) as (mb' & Eb & _ & _ & _ & Sb & _).
  { split; [apply N2|]. split; [intros p Hp; apply Ne; auto|]. intros x Hx. rewrite I2. apply Hb, C2. auto. }
  exists ma', mb'. split; [auto|]. split; [auto|]. exists a, b. split; [auto|]. destruct S as [(a' & H & S)|(a' & b' & H & S)].
  - right. exists a'. auto.
  - left. exists a', b'. split; auto. intros [E1 E2]. destruct S as [S|S]; [apply (Sa a a')|apply (Sb b b')]; auto.
Qed.
Print Assumptions C43_make_simple_pair_refinement_partial.
(** X = {(1,1),(2,2)}, Y = {(3,1),(4,2)}: only 1 and 3 are told apart; (2,2) and (4,2) stay together. *)
Definition c43_m : rmap := mk_rmap [(1, 0); (2, 0); (3, 0); (4, 0)] [[0; 1; 2; 3]].
Lemma c43_RI : RI c43_m.
Proof.
  split.
  - cbn. repeat constructor; cbn; intuition discriminate.
  - intros [|[|a]] ks H; try discriminate. injection H as <-. split; [repeat constructor; cbn; intuition discriminate|].
    intros k. destruct k as [|[|[|[|k]]]]; cbn; intuition (try discriminate). destruct k; discriminate.
  - intros k a H. destruct k as [|[|[|[|k]]]]; cbn in H; try (injection H as <-; cbn; lia). destruct k; discriminate.
Qed.
Theorem C43_make_simple_pair_refinement_refuted : exists X Y A_id B_id ra rb ma mb ma' mb' a b a' b',
  (forall p, In p X -> ~ In p Y) /\ RI ma /\ RI mb /\
  (forall x, (exists y, In (x, y) X \/ In (x, y) Y) -> rm_exists ma x = Some A_id) /\
  (forall y, (exists x, In (x, y) X \/ In (x, y) Y) -> rm_exists mb y = Some B_id) /\
  simple_pair_refine X Y [] A_id B_id = Some (ra, rb) /\ rm_refine ma ra = Some ma' /\ rm_refine mb rb = Some mb' /\
  In (a, b) X /\ In (a', b') Y /\ rm_exists ma' a = rm_exists ma' a' /\ rm_exists mb' b = rm_exists mb' b'.
Proof.
  exists [(1, 1); (2, 2)], [(3, 1); (4, 2)], 0, 0, (mk_ref [[1]; [3]] 0), (mk_ref [] 0), c43_m, c43_m.
  exists (mk_rmap [(1, 0); (2, 0); (3, 1); (4, 0)] [[0; 1; 3]; [2]]), c43_m, 2, 2, 4, 2.
  split; [intros p [<-|[<-|[]]] [H|[H|[]]]; discriminate|]. split; [apply c43_RI|]. split; [apply c43_RI|].
  split; [intros x (y & [[H|[H|[]]]|[H|[H|[]]]]); injection H as <- _; reflexivity|].
  split; [intros y (x & [[H|[H|[]]]|[H|[H|[]]]]); injection H as _ <-; reflexivity|].
  repeat split; cbn; auto.
Qed.
Print Assumptions C43_make_simple_pair_refinement_refuted.
Example C43_example : pair_refine (fun l => rev l) [(1, 1); (2, 2); (1, 2)] [(3, 1); (2, 1); (1, 3)] [5] 0 0 =
  Some (mk_ref [[1]; [2; 3]; [5]] 0, mk_ref [[3]; [2]; [1]] 0).
Proof. vm_compute. reflexivity. Qed.
