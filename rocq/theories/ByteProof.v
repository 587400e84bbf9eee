(** Byte encodings of keys: the decoder inverts the encoder. *)
From Coq Require Import List Arith NArith Lia Bool.
From Verif Require Import Base BaseFacts ByteModel.
Import ListNotations.

(** Which values belong to a type; a vector has fewer than 2^64 elements. *)
Inductive has_type : ty -> val -> Prop :=
| ht_int : forall k x, (x < 256 ^ N.of_nat k)%N -> has_type (TInt k) (VInt x)
| ht_tuple : forall ts vs, Forall2 has_type ts vs -> has_type (TTuple ts) (VTuple vs)
| ht_vec : forall t vs, (N.of_nat (length vs) < 2 ^ 64)%N -> Forall (has_type t) vs -> has_type (TVec t) (VVec vs)
| ht_variant : forall ts i t v, nth_error ts i = Some t -> has_type t v -> has_type (TVariant ts) (VVariant i v).
(** Types that occur: a variant has fewer than 2^64 alternatives. *)
Fixpoint small (t : ty) : Prop :=
  match t with
  | TInt _ => True
  | TTuple ts => (fix all ts := match ts with [] => True | t :: ts' => small t /\ all ts' end) ts
  | TVec t => small t
  | TVariant ts => (N.of_nat (length ts) <= 2 ^ 64)%N /\ (fix all ts := match ts with [] => True | t :: ts' => small t /\ all ts' end) ts
  end.
Definition smalls := (fix all (ts : list ty) : Prop := match ts with [] => True | t :: ts' => small t /\ all ts' end).
Lemma smalls_forall : forall ts, smalls ts -> Forall small ts.
Proof. induction ts; cbn; intros H; constructor; tauto. Qed.

Section TyInd.
  Variable Q : ty -> Prop.
  Hypothesis HI : forall k, Q (TInt k).
  Hypothesis HT : forall ts, Forall Q ts -> Q (TTuple ts).
  Hypothesis HV : forall t, Q t -> Q (TVec t).
  Hypothesis HR : forall ts, Forall Q ts -> Q (TVariant ts).
  Fixpoint ty_ind' (t : ty) : Q t :=
    let all := fix all (ts : list ty) : Forall Q ts := match ts with [] => Forall_nil Q | t :: ts' => Forall_cons t (ty_ind' t) (all ts') end in
    match t with
    | TInt k => HI k
    | TTuple ts => HT ts (all ts)
    | TVec t => HV t (ty_ind' t)
    | TVariant ts => HR ts (all ts)
    end.
End TyInd.

Lemma int_bytes_length : forall k x, length (int_bytes k x) = k.
Proof. induction k; cbn; auto. Qed.
Lemma int_bytes_range : forall k x b, In b (int_bytes k x) -> (b < 256)%N.
Proof. induction k; cbn; intros x b H; [tauto|]. destruct H as [<-|H]; [apply N.mod_lt; lia|eauto]. Qed.
Lemma bytes_int_inv : forall k x, (x < 256 ^ N.of_nat k)%N -> bytes_int (int_bytes k x) = x.
Proof.
  induction k as [|k IH]; intros x H; [cbn in *; lia|]. rewrite Nat2N.inj_succ, N.pow_succ_r' in H. cbn [int_bytes bytes_int].
  rewrite IH by (apply N.div_lt_upper_bound; lia). pose proof (N.div_mod x 256). lia.
Qed.
Lemma take_bytes_app : forall l r, take_bytes (length l) (l ++ r) = Some (l, r).
Proof. induction l as [|b l IH]; intros r; cbn; auto. rewrite IH. auto. Qed.
Lemma read_int_app : forall k x r, (x < 256 ^ N.of_nat k)%N -> read_int k (int_bytes k x ++ r) = Some (x, r).
Proof. intros k x r H. unfold read_int. rewrite <- (int_bytes_length k x) at 1. rewrite take_bytes_app. cbn. rewrite bytes_int_inv; auto. Qed.

(** Names for the local loops. *)
Definition push_tuple := fix tuple (ts : list ty) (vs : list val) : option (list N) :=
  match ts, vs with
  | [], [] => Some []
  | t :: ts', v :: vs' => a <- push_back_bytes t v ;; b <- tuple ts' vs' ;; Some (a ++ b)
  | _, _ => None
  end.
Definition push_elems (t : ty) := fix elems (vs : list val) : option (list N) :=
  match vs with [] => Some [] | v :: vs' => a <- push_back_bytes t v ;; b <- elems vs' ;; Some (a ++ b) end.
Definition push_alt (v : val) := fix alternative (ts : list ty) (i : nat) : option (list N) :=
  match ts, i with
  | t :: _, 0 => push_back_bytes t v
  | _ :: ts', S i' => alternative ts' i'
  | [], _ => None
  end.
Definition read_tuple := fix tuple (ts : list ty) (l : list N) : option (list val * list N) :=
  match ts with
  | [] => Some ([], l)
  | t :: ts' => p <- from_bytes t l ;; q <- tuple ts' (snd p) ;; Some (fst p :: fst q, snd q)
  end.
Definition read_elems (t : ty) := fix elems (n : nat) (l : list N) : option (list val * list N) :=
  match n with
  | 0 => Some ([], l)
  | S n' => p <- from_bytes t l ;; q <- elems n' (snd p) ;; Some (fst p :: fst q, snd q)
  end.
Definition read_alt (l : list N) := fix alternative (ts : list ty) (i : nat) : option (val * list N) :=
  match ts, i with
  | t :: _, 0 => from_bytes t l
  | _ :: ts', S i' => alternative ts' i'
  | [], _ => None
  end.
Lemma push_alt_nth : forall v ts i, push_alt v ts i = (t <- nth_error ts i ;; push_back_bytes t v).
Proof. induction ts as [|t ts IH]; intros [|i]; cbn; auto. Qed.
Lemma read_alt_nth : forall l ts i, read_alt l ts i = (t <- nth_error ts i ;; from_bytes t l).
Proof. induction ts as [|t ts IH]; intros [|i]; cbn; auto. Qed.

Definition codec_ok (t : ty) : Prop := small t -> forall v, has_type t v ->
  exists bs, push_back_bytes t v = Some bs /\ Forall (fun b => (b < 256)%N) bs /\ forall r, from_bytes t (bs ++ r) = Some (v, r).

Lemma codec : forall t, codec_ok t.
Proof.
  induction t as [k|ts IH|t IH|ts IH] using ty_ind'; intros HS v HT; inversion HT as [? x Hx|? vs HF2|? vs HL HE|? i tv v0 Hn Hv]; subst.
  - exists (int_bytes k x). split; auto. split; [apply Forall_forall; intros b; apply int_bytes_range|]. intros r. cbn [from_bytes]. rewrite read_int_app; auto.
  - cbn [push_back_bytes from_bytes]. fold push_tuple read_tuple. change (smalls ts) in HS. apply smalls_forall in HS. clear HT.
    assert (G : exists bs, push_tuple ts vs = Some bs /\ Forall (fun b => (b < 256)%N) bs /\ forall r, read_tuple ts (bs ++ r) = Some (vs, r)).
    { induction HF2 as [|t v ts vs H HF IHF]; [exists []; cbn; ands; auto|]. inversion IH as [|? ? K1 K2]; subst. inversion HS as [|? ? K3 K4]; subst. destruct (IHF K2 K4) as (bs & B1 & B2 & B3).
      destruct (K1 K3 v H) as (b1 & C1 & C2 & C3). exists (b1 ++ bs). cbn. fold push_tuple read_tuple. rewrite C1, B1. cbn. ands; auto; [apply Forall_app; auto|].
      intros r. rewrite <- app_assoc, C3. cbn. rewrite B3. auto. }
    destruct G as (bs & G1 & G2 & G3). exists bs. ands; auto. intros r. rewrite G3. auto.
  - cbn [push_back_bytes from_bytes]. fold (push_elems t) (read_elems t). cbn in HS. clear HT.
    assert (G : exists bs, push_elems t vs = Some bs /\ Forall (fun b => (b < 256)%N) bs /\ forall r, read_elems t (length vs) (bs ++ r) = Some (vs, r)).
    { clear HL. induction HE as [|v vs H HF IHF]; [exists []; cbn; ands; auto|]. destruct IHF as (bs & B1 & B2 & B3).
      destruct (IH HS v H) as (b1 & C1 & C2 & C3). exists (b1 ++ bs). cbn. fold (push_elems t) (read_elems t). rewrite C1, B1. cbn. ands; auto; [apply Forall_app; auto|].
      intros r. rewrite <- app_assoc, C3. cbn. rewrite B3. auto. }
    destruct G as (bs & G1 & G2 & G3). rewrite G1. cbn [obind]. eexists. split; [reflexivity|]. split; [apply Forall_app; split; auto; apply Forall_forall; intros b; apply int_bytes_range|].
    intros r. rewrite <- app_assoc, read_int_app by exact HL. cbn [obind fst snd]. rewrite Nat2N.id, G3. auto.
  - cbn [push_back_bytes from_bytes]. fold (push_alt v0). rewrite push_alt_nth, Hn. cbn [obind]. destruct HS as [HN HS]. apply smalls_forall in HS. clear HT.
    rewrite Forall_forall in IH, HS. assert (Ht := nth_error_In _ _ Hn). destruct (IH _ Ht (HS _ Ht) v0 Hv) as (bs & B1 & B2 & B3). rewrite B1. cbn [obind].
    assert (Li : i < length ts) by (apply nth_error_Some; congruence).
    eexists. split; [reflexivity|]. split.
    + apply Forall_app; split; auto. destruct (Nat.eqb (length ts) 1); auto. apply Forall_forall; intros b; apply int_bytes_range.
    + intros r. destruct (Nat.eqb_spec (length ts) 1) as [E|E].
      * cbn [obind app fst snd N.to_nat]. fold (read_alt (bs ++ r)). rewrite read_alt_nth. assert (i = 0) by lia. subst i. rewrite Hn. cbn [obind]. rewrite B3. auto.
      * rewrite <- app_assoc, read_int_app.
        -- cbn [obind fst snd]. rewrite Nat2N.id. fold (read_alt (bs ++ r)). rewrite read_alt_nth, Hn. cbn [obind]. rewrite B3. auto.
        -- unfold index_bytes. destruct (Nat.leb_spec (length ts) 255); [change (256 ^ N.of_nat 1)%N with 256%N; lia|change (256 ^ N.of_nat 8)%N with (2 ^ 64)%N; lia].
Qed.

Lemma size_fixed : forall t v s bs, fixed_byte_size t = Some s -> push_back_bytes t v = Some bs -> length bs = s.
Proof.
  induction t as [k|ts IH|t IH|ts IH] using ty_ind'; intros v s bs HF HP; try discriminate; destruct v; try discriminate.
  - cbn in *. injection HF as <-. injection HP as <-. apply int_bytes_length.
  - revert vs s bs HF HP. induction IH as [|t ts H IH IHF]; intros [|v vs] s bs HF HP; cbn in HF, HP; try discriminate.
    + injection HF as <-. injection HP as <-. auto.
    + destruct (fixed_byte_size t) as [a|] eqn:Ea; [|discriminate]. cbn [obind] in HF.
      fold push_tuple in HP. destruct (push_back_bytes t v) as [b|] eqn:Eb; [|discriminate]. cbn [obind] in HP.
      destruct (push_tuple ts vs) as [c|] eqn:Ec; [|discriminate]. injection HP as <-.
      match type of HF with (match ?x with _ => _ end = _) => idtac | _ => idtac end.
      change ((b0 <- fixed_byte_size (TTuple ts) ;; Some (a + b0)) = Some s) in HF. destruct (fixed_byte_size (TTuple ts)) as [d|] eqn:Ed; [|discriminate].
      injection HF as <-. rewrite app_length. f_equal; [eapply H; eauto|]. eapply IHF; eauto.
Qed.
(** Types the library accepts: the elements of a vector have a fixed size. *)
Fixpoint accepted_type (t : ty) : Prop :=
  match t with
  | TInt _ => True
  | TTuple ts => (fix all ts := match ts with [] => True | t :: ts' => accepted_type t /\ all ts' end) ts
  | TVec t => fixed_byte_size t <> None
  | TVariant ts => (fix all ts := match ts with [] => True | t :: ts' => accepted_type t /\ all ts' end) ts
  end.
Definition accepteds := (fix all (ts : list ty) : Prop := match ts with [] => True | t :: ts' => accepted_type t /\ all ts' end).
Lemma accepteds_forall : forall ts, accepteds ts -> Forall accepted_type ts.
Proof. induction ts; cbn; intros H; constructor; tauto. Qed.
Definition size_alt (v : val) := fix alternative (ts : list ty) (i : nat) : option nat :=
  match ts, i with
  | t :: _, 0 => byte_size t v
  | _ :: ts', S i' => alternative ts' i'
  | [], _ => None
  end.
Lemma size_alt_nth : forall v ts i, size_alt v ts i = (t <- nth_error ts i ;; byte_size t v).
Proof. induction ts as [|t ts IH]; intros [|i]; cbn; auto. Qed.

Lemma size_ok : forall t v bs, accepted_type t -> push_back_bytes t v = Some bs -> byte_size t v = Some (length bs).
Proof.
  induction t as [k|ts IH|t IH|ts IH] using ty_ind'; intros v bs HA HP; destruct v; try discriminate.
  - cbn in *. injection HP as <-. rewrite int_bytes_length. auto.
  - change (accepteds ts) in HA. apply accepteds_forall in HA. change (push_tuple ts vs = Some bs) in HP. revert vs bs HP.
    induction IH as [|t ts H IH IHF]; intros [|v vs] bs HP; cbn in HP; try discriminate.
    + injection HP as <-. auto.
    + fold push_tuple in HP. inversion HA; subst. destruct (push_back_bytes t v) as [b|] eqn:Eb; [|discriminate]. cbn [obind] in HP.
      destruct (push_tuple ts vs) as [c|] eqn:Ec; [|discriminate]. injection HP as <-.
      change ((a <- byte_size t v ;; b0 <- byte_size (TTuple ts) (VTuple vs) ;; Some (a + b0)) = Some (length (b ++ c))).
      rewrite (H _ _ H2 Eb), (IHF H3 _ _ Ec), app_length. auto.
  - cbn [push_back_bytes] in HP. fold (push_elems t) in HP. destruct (push_elems t vs) as [b|] eqn:Eb; [|discriminate]. injection HP as <-.
    cbn in HA. cbn [byte_size]. destruct (fixed_byte_size t) as [s|] eqn:Es; [|congruence]. cbn [obind]. f_equal.
    change (size_bytes + s * length vs = length (int_bytes size_bytes (N.of_nat (length vs)) ++ b)). rewrite app_length, int_bytes_length. f_equal.
    clear - Es Eb. revert b Eb. induction vs as [|v vs IH]; cbn; intros b Eb; [injection Eb as <-; cbn; lia|]. fold (push_elems t) in Eb.
    destruct (push_back_bytes t v) as [x|] eqn:Ex; [|discriminate]. cbn in Eb. destruct (push_elems t vs) as [y|] eqn:Ey; [|discriminate]. injection Eb as <-.
    rewrite app_length, (size_fixed _ _ _ _ Es Ex), <- (IH y eq_refl). lia.
  - cbn [push_back_bytes byte_size] in *. fold (push_alt v) in HP. fold (size_alt v). rewrite push_alt_nth in HP. rewrite size_alt_nth.
    destruct (nth_error ts i) as [t|] eqn:Et; [|discriminate]. cbn [obind] in *. destruct (push_back_bytes t v) as [b|] eqn:Eb; [|discriminate]. injection HP as <-.
    change (accepteds ts) in HA. apply accepteds_forall in HA. rewrite Forall_forall in IH, HA. assert (Ht := nth_error_In _ _ Et). rewrite (IH _ Ht _ _ (HA _ Ht) Eb). cbn [obind].
    rewrite app_length. destruct (Nat.eqb (length ts) 1); auto. rewrite int_bytes_length. auto.
Qed.

Lemma int_bytes_inj : forall k x y, (x < 256 ^ N.of_nat k)%N -> (y < 256 ^ N.of_nat k)%N -> int_bytes k x = int_bytes k y -> x = y.
Proof. intros k x y Hx Hy H. rewrite <- (bytes_int_inv k x Hx), <- (bytes_int_inv k y Hy), H. auto. Qed.
Lemma vector_bytes_inj : forall k xs ys, 0 < k -> Forall (fun x => (x < 256 ^ N.of_nat k)%N) xs -> Forall (fun x => (x < 256 ^ N.of_nat k)%N) ys ->
  vector_bytes k xs = vector_bytes k ys -> xs = ys.
Proof.
  intros k xs ys Hk. revert ys. induction xs as [|x xs IH]; intros [|y ys] HX HY H; auto; inversion HX; inversion HY; subst.
  - cbn in H. assert (K := int_bytes_length k y). destruct (int_bytes k y); cbn in *; [lia|discriminate].
  - cbn in H. assert (K := int_bytes_length k x). destruct (int_bytes k x); cbn in *; [lia|discriminate].
  - cbn [vector_bytes flat_map] in H.
    assert (E : int_bytes k x = int_bytes k y /\ flat_map (int_bytes k) xs = flat_map (int_bytes k) ys).
    { assert (T := f_equal (take_bytes k) H). rewrite <- (int_bytes_length k x) in T at 1. rewrite take_bytes_app in T.
      rewrite <- (int_bytes_length k y) in T at 3. rewrite take_bytes_app in T. injection T as T1 T2. auto. }
    destruct E as [E1 E2]. f_equal; [eapply int_bytes_inj; eauto|apply IH; auto].
Qed.
