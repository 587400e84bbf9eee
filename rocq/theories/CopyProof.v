(** Proofs about copies of automata. *)
From Coq Require Import List Arith Lia Bool.
From Verif Require Import Base BaseFacts Spec AutModel NfaModel CopyModel.
Import ListNotations.

(** The allocator has no free address for some heap. *)
Definition out_of_memory {C} (alloc : heap C -> nat) : Prop := exists h, h (alloc h) <> None.
Lemma write_eq : forall C (h : heap C) a c, write h a c a = c.
Proof. intros. unfold write. rewrite Nat.eqb_refl. auto. Qed.
Lemma write_neq : forall C (h : heap C) a b c, b <> a -> write h a c b = h b.
Proof. intros. unfold write. destruct (Nat.eqb_spec b a); [contradiction|auto]. Qed.

Lemma omap_ext : forall A B (f g : A -> option B) l, (forall x, In x l -> f x = g x) -> omap f l = omap g l.
Proof. induction l as [|x l IH]; intros H; cbn; auto. rewrite H, IH; cbn; auto. intros; apply H; cbn; auto. Qed.
Lemma omap_map : forall A B D (f : B -> option D) (g : A -> B) l, omap f (map g l) = omap (fun x => f (g x)) l.
Proof. induction l as [|x l IH]; cbn; auto. rewrite IH. auto. Qed.
Lemma omap_In : forall A B (f : A -> option B) l ys x, omap f l = Some ys -> In x l -> exists y, f x = Some y.
Proof.
  induction l as [|a l IH]; intros ys x E Hx; cbn in *; [destruct Hx|]. destruct (f a) as [y|] eqn:Ea; [|discriminate]. cbn in E. destruct (omap f l) as [zs|]; [|discriminate]. destruct Hx as [<-|Hx]; eauto.
Qed.
Lemma omap_nth : forall A B (f : A -> option B) l l', length l = length l' -> (forall i x y, nth_error l i = Some x -> nth_error l' i = Some y -> f x = f y) -> omap f l = omap f l'.
Proof.
  induction l as [|x l IH]; intros [|y l'] HL H; try discriminate; auto. cbn. rewrite (H 0 x y), (IH l'); auto. intros i a b Ha Hb. apply (H (S i)); auto.
Qed.
Lemma omap_nth2 : forall A A' B (f : A -> option B) (g : A' -> option B) l l', length l = length l' -> (forall i x y, nth_error l i = Some x -> nth_error l' i = Some y -> f x = g y) -> omap f l = omap g l'.
Proof.
  induction l as [|x l IH]; intros [|y l'] HL H; try discriminate; auto. cbn. rewrite (H 0 x y), (IH l'); auto. intros i a b Ha Hb. apply (H (S i)); auto.
Qed.

Lemma index_nth : forall l a i, index l a = Some i -> nth_error l i = Some a.
Proof.
  induction l as [|x l IH]; intros a i E; cbn in E; [discriminate|]. destruct (Nat.eqb_spec x a) as [->|]; [injection E as <-; auto|]. destruct (index l a) as [j|] eqn:Ej; [|discriminate]. injection E as <-. cbn. auto.
Qed.
Lemma nth_index : forall l a i, NoDup l -> nth_error l i = Some a -> index l a = Some i.
Proof.
  induction l as [|x l IH]; intros a [|i] HN E; try discriminate; cbn in *.
  - injection E as ->. rewrite Nat.eqb_refl. auto.
  - inversion HN as [|y l0 N1 N2]; subst. destruct (Nat.eqb_spec x a) as [->|]; [destruct N1; eapply nth_error_In; eauto|]. rewrite (IH a i); auto.
Qed.
Lemma index_None : forall l a, index l a = None <-> ~ In a l.
Proof.
  induction l as [|x l IH]; intros a; cbn; [split; auto|]. destruct (Nat.eqb_spec x a) as [->|]; [split; [discriminate|intros H; destruct H; auto]|]. destruct (index l a) eqn:E.
  - split; [discriminate|]. intros H. destruct H. right. apply index_nth in E. eapply nth_error_In; eauto.
  - split; [|reflexivity]. intros _ [H|H]; [contradiction|]. apply (IH a); auto.
Qed.

(** The first loop. *)
Lemma copy_states_spec : forall C (alloc : heap C -> nat) l h ns m, NoDup l -> (forall s, In s l -> h s <> None) ->
  match ofold (copy_state alloc) l (h, (ns, m)) with
  | None => out_of_memory alloc
  | Some (h', (ns', m')) => exists new, ns' = ns ++ new /\ length new = length l /\ NoDup new /\ (forall a, In a new -> h a = None) /\
      (forall a, h a <> None -> h' a = h a) /\ (forall i s a, nth_error l i = Some s -> nth_error new i = Some a -> h' a = h s) /\
      (forall a, ~ In a new -> h' a = h a) /\
      (forall a, indir m' a = match index l a with Some i => nth_error new i | None => indir m a end)
  end.
Proof.
  intros C alloc. induction l as [|s l IH]; intros h ns m HN HL; cbn [ofold].
  - exists []. rewrite app_nil_r. repeat (split; [auto; try constructor; try (intros ? []; fail); try (intros [|] ? ? ?; discriminate)|]); auto.
  - inversion HN as [|y l0 N1 N2]; subst. unfold copy_state at 1. cbn [fst snd]. destruct (h s) as [c|] eqn:Es; [|exfalso; apply (HL s); cbn; auto]. cbn [obind]. unfold new_cell. destruct (h (alloc h)) eqn:Ea; [cbn; exists h; congruence|].
    cbn [obind fst snd]. set (b := alloc h) in *. set (h1 := write h b (Some c)).
    assert (K : forall a, h a <> None -> h1 a = h a) by (intros a Ha; unfold h1; apply write_neq; intros ->; contradiction).
    specialize (IH h1 (ns ++ [b]) ((s, b) :: m) N2). cbv beta in IH.
    assert (HL1 : forall s0, In s0 l -> h1 s0 <> None) by (intros s0 H0; rewrite K; apply HL; cbn; auto). specialize (IH HL1).
    destruct (ofold _ l _) as [[h' [ns' m']]|]; [|exact IH]. destruct IH as (new & -> & L1 & ND & F & P1 & P2 & P4 & P3). exists (b :: new). split; [rewrite <- app_assoc; auto|]. split; [cbn; auto|].
    assert (Hb : h1 b = Some c) by (unfold h1; apply write_eq).
    split; [constructor; auto; intros Hi; apply F in Hi; congruence|]. split; [|split; [|split; [|split]]].
    + intros a [<-|Hi]; auto. apply F in Hi. destruct (h a) eqn:Eh; auto. assert (Z : h a <> None) by congruence. rewrite <- (K a Z) in Eh. congruence.
    + intros a Ha. rewrite P1; [auto|]. rewrite K; auto.
    + intros [|i] s0 a Hi Hj; cbn in Hi, Hj.
      * injection Hi as <-. injection Hj as <-. rewrite P1; congruence.
      * rewrite (P2 i s0 a Hi Hj). apply K. apply HL. right. eapply nth_error_In; eauto.
    + intros a Ha. cbn in Ha. rewrite P4 by tauto. unfold h1. apply write_neq. intros ->. tauto.
    + intros a. rewrite P3. cbn [index indir]. destruct (Nat.eqb_spec s a) as [->|Hn].
      * rewrite (proj2 (index_None l a) N1). auto.
      * destruct (index l a); auto.
Qed.
Lemma indir_index : forall l new m a, NoDup new -> length new = length l -> (forall x, indir m x = match index l x with Some i => nth_error new i | None => None end) -> index_ptr new (indir_ptr m a) = index_ptr l a.
Proof.
  intros l new m [a|] ND L H; auto. cbn. rewrite H. destruct (index l a) as [i|] eqn:E; auto. apply index_nth in E. assert (Li : i < length new) by (rewrite L; apply nth_error_Some; congruence).
  destruct (nth_error new i) as [b|] eqn:Eb; [|apply nth_error_None in Eb; lia]. cbn. apply nth_index; auto.
Qed.
(** Loops that change each state once. *)
Lemma write_loop : forall C (f : C -> C) l h, NoDup l -> (forall a, In a l -> h a <> None) ->
  exists h', ofold (fun h s => c <- h s ;; Some (write h s (Some (f c)))) l h = Some h' /\ forall a, h' a = if in_dec Nat.eq_dec a l then option_map f (h a) else h a.
Proof.
  induction l as [|s l IH]; intros h HN HL; cbn [ofold]; [exists h; split; auto|]. inversion HN as [|y l0 N1 N2]; subst. destruct (h s) as [c|] eqn:Es; [|exfalso; apply (HL s); cbn; auto]. cbn [obind].
  destruct (IH (write h s (Some (f c))) N2) as (h' & E & H).
  { intros a Ha. rewrite write_neq; [apply HL; cbn; auto|]. intros ->. contradiction. }
  exists h'. split; auto. intros a. rewrite H. destruct (in_dec Nat.eq_dec a l) as [Hi|Hn].
  - destruct (in_dec Nat.eq_dec a (s :: l)) as [_|Hx]; [|destruct Hx; cbn; auto]. rewrite write_neq; auto. intros ->. contradiction.
  - destruct (Nat.eq_dec a s) as [->|Hs].
    + rewrite write_eq. destruct (in_dec Nat.eq_dec s (s :: l)) as [_|Hx]; [|destruct Hx; cbn; auto]. rewrite Es. auto.
    + rewrite write_neq by auto. destruct (in_dec Nat.eq_dec a (s :: l)) as [[Hx|Hx]|_]; auto; [congruence|contradiction].
Qed.

(** What is read of an object depends only on its own states. *)
Lemma read_nfa_local : forall h h' o, (forall a, In a (o_states o) -> h' a = h a) -> read_nfa h' o = read_nfa h o.
Proof. intros h h' o H. unfold read_nfa. rewrite (omap_ext _ _ _ (fun a => c <- h a ;; read_state (o_states o) c)); auto. intros x Hx. rewrite H; auto. Qed.
Lemma read_aut_local : forall ord h h' o, (forall a, In a (o_states o) -> h' a = h a) -> read_aut ord h' o = read_aut ord h o.
Proof. intros ord h h' o H. unfold read_aut. rewrite (omap_ext _ _ h' h); auto. Qed.
Lemma read_nfa_alloc : forall h o N, read_nfa h o = Some N -> forall a, In a (o_states o) -> h a <> None.
Proof.
  intros h o N E a Ha. unfold read_nfa in E. destruct (omap _ (o_states o)) as [ss|] eqn:Es; [|discriminate]. destruct (omap_In _ _ _ _ _ _ Es Ha) as [y Hy]. destruct (h a); [discriminate|discriminate].
Qed.
Lemma read_aut_alloc : forall ord h o N, read_aut ord h o = Some N -> forall a, In a (o_states o) -> h a <> None.
Proof.
  intros ord h o N E a Ha. unfold read_aut in E. destruct (omap _ (o_states o)) as [ss|] eqn:Es; [|discriminate]. destruct (omap_In _ _ _ _ _ _ Es Ha) as [y Hy]. congruence.
Qed.

(** Objects that own their states. *)
Definition owns {C} (h : heap C) (o : obj) : Prop := NoDup (o_states o) /\ forall a, In a (o_states o) -> h a <> None.
Definition apart (o1 o2 : obj) : Prop := forall a, In a (o_states o1) -> In a (o_states o2) -> False.

Theorem nfa_copy_spec : forall alloc h o N, NoDup (o_states o) -> read_nfa h o = Some N ->
  match nfa_copy alloc h o with
  | None => out_of_memory alloc
  | Some (h', o') => read_nfa h' o' = Some N /\ (forall a, h a <> None -> h' a = h a) /\ owns h' o' /\ apart o o'
  end.
Proof.
  intros alloc h o N ND HR. assert (HA := read_nfa_alloc _ _ _ HR). unfold nfa_copy, nfa_assign. cbn [o_states o_init o_accs no_obj].
  assert (S := copy_states_spec _ alloc (o_states o) h [] [] ND HA). destruct (ofold (copy_state alloc) _ _) as [[h1 [ns m]]|]; [|exact S]. cbn [obind fst snd]. destruct S as (new & -> & L & NN & F & P1 & P2 & P4 & P3). cbn [app] in *.
  assert (A1 : forall a, In a new -> h1 a <> None).
  { intros a Ha. destruct (In_nth_error _ _ Ha) as [i Hi]. assert (Li : i < length (o_states o)) by (rewrite <- L; apply nth_error_Some; congruence). destruct (nth_error_ex _ _ _ Li) as [s Hs]. rewrite (P2 i s a Hs Hi). apply HA. eapply nth_error_In; eauto. }
  destruct (write_loop _ (relink m) new h1 NN A1) as (h2 & E & H2). rewrite E. cbn [obind].
  assert (K : forall a, h a <> None -> h2 a = h a). { intros a Ha. rewrite H2. destruct (in_dec Nat.eq_dec a new) as [Hi|]; auto. apply F in Hi. contradiction. }
  assert (IX : forall p, index_ptr new (indir_ptr m p) = index_ptr (o_states o) p) by (intros p; apply indir_index; auto).
  split; [|split; [auto|split; [split; [auto|]|]]].
  - rewrite <- HR. unfold read_nfa. cbn [o_states o_init o_accs].
    rewrite (omap_nth2 _ _ _ (fun a => c <- h2 a ;; read_state new c) (fun a => c <- h a ;; read_state (o_states o) c) new (o_states o) L).
    2:{ intros i a s Ha Hs. rewrite H2. destruct (in_dec Nat.eq_dec a new) as [_|Hx]; [|destruct Hx; eapply nth_error_In; eauto]. rewrite (P2 i s a Hs Ha). destruct (h s) as [c|]; auto. cbn [option_map obind].
        unfold read_state, relink. cbn [hs_edges hs_acc]. rewrite omap_map. rewrite (omap_ext _ _ _ (read_edge (o_states o))); auto. intros e _. unfold read_edge. cbn [he_dst he_eps he_neg he_sym]. rewrite IX. auto. }
    rewrite !omap_map. rewrite (omap_ext _ _ _ (index_ptr (o_states o)) (o_init o)) by (intros; apply IX). rewrite (omap_ext _ _ _ (index_ptr (o_states o)) (o_accs o)) by (intros; apply IX). auto.
  - cbn [o_states]. intros a Ha. rewrite H2. destruct (in_dec Nat.eq_dec a new) as [_|]; [|contradiction]. specialize (A1 a Ha). destruct (h1 a); [discriminate|contradiction].
  - intros a Ha Hb. cbn [o_states] in Hb. apply F in Hb. apply (HA a Ha Hb).
Qed.
Theorem pa_copy_spec : forall alloc ord h o X, NoDup (o_states o) -> read_aut ord h o = Some X ->
  match pa_copy alloc h o with
  | None => out_of_memory alloc
  | Some (h', o') => read_aut ord h' o' = Some X /\ (forall a, h a <> None -> h' a = h a) /\ owns h' o' /\ apart o o'
  end.
Proof.
  intros alloc ord h o X ND HR. assert (HA := read_aut_alloc _ _ _ _ HR). unfold pa_copy.
  assert (S := copy_states_spec _ alloc (o_states o) h [] [] ND HA). destruct (ofold (copy_state alloc) _ _) as [[h1 [ns m]]|]; [|exact S]. cbn [obind fst snd]. destruct S as (new & -> & L & NN & F & P1 & P2 & P4 & P3). cbn [app] in *.
  assert (IX : forall p, index_ptr new (indir_ptr m p) = index_ptr (o_states o) p) by (intros p; apply indir_index; auto).
  split; [|split; [auto|split; [split; [auto|]|]]].
  - rewrite <- HR. unfold read_aut. cbn [o_states o_init o_accs].
    rewrite (omap_nth2 _ _ _ h1 h new (o_states o) L) by (intros i a s Ha Hs; apply (P2 i); auto).
    rewrite !omap_map. rewrite (omap_ext _ _ _ (index_ptr (o_states o)) (o_init o)) by (intros; apply IX). rewrite (omap_ext _ _ _ (index_ptr (o_states o)) (o_accs o)) by (intros; apply IX). auto.
  - cbn [o_states]. intros a Ha. destruct (In_nth_error _ _ Ha) as [i Hi]. assert (Li : i < length (o_states o)) by (rewrite <- L; apply nth_error_Some; congruence). destruct (nth_error_ex _ _ _ Li) as [s Hs]. rewrite (P2 i s a Hs Hi). apply HA. eapply nth_error_In; eauto.
  - intros a Ha Hb. cbn [o_states] in Hb. apply F in Hb. apply (HA a Ha Hb).
Qed.

(** Changes through one object do not touch the states of another. *)
Lemma free_loop : forall C l (h : heap C) a, ~ In a l -> fold_left (fun h a => write h a None) l h a = h a.
Proof. induction l as [|x l IH]; intros h a H; cbn in *; auto. rewrite IH by tauto. apply write_neq. intros ->. tauto. Qed.
Lemma mop_apart : forall C (alloc : heap C -> nat) m h o h' o' o2, do_mop alloc (h, o) m = Some (h', o') -> apart o2 o -> (forall a, In a (o_states o2) -> h a <> None) ->
  apart o2 o' /\ forall a, In a (o_states o2) -> h' a = h a.
Proof.
  intros C alloc m h o h' o' o2 E HA HS. destruct m as [i f|c|i a|]; cbn [do_mop fst snd] in E.
  - destruct (nth_error (o_states o) i) as [a|] eqn:Ei; [|discriminate]. cbn [obind] in E. destruct (h a) as [c|]; [|discriminate]. cbn [obind] in E. injection E as <- <-. split; auto. intros b Hb. apply write_neq. intros ->. apply (HA a Hb). eapply nth_error_In; eauto.
  - unfold new_cell in E. destruct (h (alloc h)) eqn:Eh; [discriminate|]. cbn [obind fst snd] in E. injection E as <- <-. assert (Z : forall b, In b (o_states o2) -> b <> alloc h) by (intros b Hb ->; apply (HS _ Hb Eh)). split.
    + intros b Hb Hc. cbn in Hc. apply in_app_or in Hc. destruct Hc as [Hc|[Hc|[]]]; [apply (HA b); auto|apply (Z b); auto].
    + intros b Hb. apply write_neq. auto.
  - injection E as <- <-. split; auto.
  - injection E as <- <-. split; [intros b _ []|]. intros b Hb. apply free_loop. intros Hc. apply (HA b); auto.
Qed.
Lemma mops_apart : forall C (alloc : heap C -> nat) ms h o h' o' o2, do_mops alloc ms (h, o) = Some (h', o') -> apart o2 o -> (forall a, In a (o_states o2) -> h a <> None) ->
  forall a, In a (o_states o2) -> h' a = h a.
Proof.
  intros C alloc ms. induction ms as [|m ms IH]; intros h o h' o' o2 E HA HS a Ha; cbn [do_mops ofold] in E.
  - injection E as <- _. auto.
  - unfold do_mops in E. cbn [ofold] in E. destruct (do_mop alloc (h, o) m) as [[h1 o1]|] eqn:E1; [|discriminate]. cbn [obind] in E. destruct (mop_apart _ _ _ _ _ _ _ _ E1 HA HS) as [A1 A2].
    rewrite (IH h1 o1 h' o' o2 E A1) by (auto; intros b Hb; rewrite A2; auto). apply A2. auto.
Qed.
