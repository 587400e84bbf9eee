(** C53: runs of fixed_point_workset end. *)
From Coq Require Import List Arith Lia Bool.
From Verif Require Import Base BaseFacts UtilModel.
Import ListNotations.
(** Every run ends, whatever the callbacks do: each round works off a finite list and the rounds are counted up to the limit. *)
Lemma ws_loop_ends : forall S enf (sw : bool -> S -> nat -> S * list nat * bool) bt m k w, ws_limit w - ws_rounds w <= m -> List.length (ws_work w) <= k -> ws_rounds w <= ws_limit w ->
  exists bound, forall fuel, bound <= fuel -> ws_loop enf sw bt fuel w <> Some None.
Proof.
  intros S enf sw bt. induction m as [|m IHm].
  - intros k w M _ L. exists 0. intros fuel _. assert (E: ws_stop w = true) by (unfold ws_stop; rewrite (proj2 (Nat.eqb_eq _ _)); [apply orb_true_r|lia]). destruct fuel; cbn; rewrite E; discriminate.
  - induction k as [|k IHk]; intros w M K L.
    + destruct (ws_stop w) eqn:E; [exists 0; intros [|fuel] _; cbn; rewrite E; discriminate|]. unfold ws_stop in E. apply orb_false_iff in E. destruct E as [E1 E2]. apply Nat.eqb_neq in E2.
      destruct (ws_step enf sw bt w) as [w'|] eqn:ES; [|exists 1; intros [|fuel] H; [lia|]; cbn; unfold ws_stop; rewrite E1, (proj2 (Nat.eqb_neq _ _) E2); cbn; rewrite ES; discriminate].
      assert (G: ws_limit w' = ws_limit w /\ ws_rounds w' = Datatypes.S (ws_rounds w)).
      { unfold ws_step in ES. destruct (ws_work w); [|cbn in K; lia]. destruct (ws_next w) as [|x l]; [injection ES as <-; auto|]. unfold ws_take in ES. cbn [ws_work] in ES. destruct (rev _) as [|e rest]; [discriminate|]. destruct (sw _ _ _) as [[s' ins] ok]. injection ES as <-. auto. }
      destruct G as [G1 G2]. destruct (IHm (List.length (ws_work w')) w') as [b B]; [lia|lia|lia|]. exists (Datatypes.S b). intros [|fuel] H; [lia|]. cbn. unfold ws_stop. rewrite E1, (proj2 (Nat.eqb_neq _ _) E2). cbn. rewrite ES. cbn. apply B. lia.
    + destruct (ws_stop w) eqn:E; [exists 0; intros [|fuel] _; cbn; rewrite E; discriminate|]. assert (E0 := E). unfold ws_stop in E. apply orb_false_iff in E. destruct E as [E1 E2]. apply Nat.eqb_neq in E2.
      destruct (ws_work w) as [|x l] eqn:EW; [apply (IHk w); auto; rewrite EW; cbn; lia|].
      destruct (ws_step enf sw bt w) as [w'|] eqn:ES; [|exists 1; intros [|fuel] H; [lia|]; cbn; rewrite E0, ES; discriminate].
      assert (G: ws_limit w' = ws_limit w /\ ws_rounds w' = ws_rounds w /\ List.length (ws_work w') <= k).
      { unfold ws_step in ES. rewrite EW in ES. unfold ws_take in ES. rewrite EW in ES. destruct (rev (x :: l)) as [|e rest] eqn:ER; [discriminate|]. destruct (sw _ _ _) as [[s' ins] ok]. injection ES as <-. cbn [ws_limit ws_rounds ws_work]. repeat split.
        assert (Q := f_equal (@List.length nat) ER). rewrite rev_length in Q. cbn in Q, K. rewrite rev_length. lia. }
      destruct G as [G1 [G2 G3]]. destruct (IHk w') as [b B]; [lia|lia|lia|]. exists (Datatypes.S b). intros [|fuel] H; [lia|]. cbn. rewrite E0, ES. cbn. apply B. lia.
Qed.
Lemma ws_loop_det : forall S enf (sw : bool -> S -> nat -> S * list nat * bool) bt f1 w r1, ws_loop enf sw bt f1 w = Some (Some r1) -> forall f2, ws_loop enf sw bt f2 w <> Some None -> ws_loop enf sw bt f2 w = Some (Some r1).
Proof.
  intros S enf sw bt. induction f1 as [|f1 IH]; intros w r1 H f2 N; cbn in H; destruct (ws_stop w) eqn:E; try discriminate.
  - destruct f2; cbn in *; rewrite E in *; exact H.
  - destruct f2; cbn in *; rewrite E in *; exact H.
  - destruct f2 as [|f2]; cbn in *; rewrite E in *; [congruence|]. destruct (ws_step enf sw bt w) as [w'|]; [|discriminate]. cbn in *. eapply IH; eauto.
Qed.
Theorem C53_workset_ends : forall S enf (sw : bool -> S -> nat -> S * list nat * bool) limit s ins,
  exists bound, forall fuel, bound <= fuel -> ws_run enf sw fuel (ws_init limit s ins) <> Some None.
Proof.
  intros S enf sw limit s ins. set (w := ws_init limit s ins).
  destruct (ws_loop_ends S enf sw false limit (List.length (ws_work w)) w) as [b1 B1]; [cbn; lia|lia|cbn; lia|].
  destruct (ws_loop enf sw false b1 w) as [[w1|]|] eqn:E1; [|exfalso; apply (B1 b1); auto|].
  - set (w2 := mk_wset (ws_done w1) (ws_limit w1) 0 (ws_work w1) (ws_next w1) (ws_s w1) (ws_log w1)).
    destruct (ws_loop_ends S enf sw true (ws_limit w2) (List.length (ws_work w2)) w2) as [b2 B2]; [cbn; lia|lia|cbn; lia|].
    exists (Nat.max b1 b2). intros fuel H. unfold ws_run. rewrite (ws_loop_det S enf sw false b1 w w1 E1 fuel) by (apply B1; lia). cbn [obind]. apply B2. lia.
  - exists b1. intros fuel H. unfold ws_run. destruct (ws_loop enf sw false fuel w) as [[w1|]|] eqn:E; cbn [obind]; [|exfalso; apply (B1 fuel); auto|discriminate].
    exfalso. assert (Q := ws_loop_det S enf sw false fuel w w1 E b1). rewrite E1 in Q. assert (Z: None = Some (Some w1)) by (apply Q; discriminate). discriminate.
Qed.
Print Assumptions C53_workset_ends.
(** A set on which nothing waits stops at once, whatever the limit: no callback is made. *)
Theorem C53_workset_idle : forall S enf (sw : bool -> S -> nat -> S * list nat * bool) limit s fuel, 0 < fuel ->
  exists w, ws_run enf sw fuel (ws_init limit s []) = Some (Some w) /\ ws_s w = s /\ ws_log w = [].
Proof.
  intros S enf sw limit s [|fuel] H; [lia|]. unfold ws_run, ws_init. cbn. unfold ws_stop. cbn. destruct limit as [|[|limit]]; cbn.
  - unfold ws_finalize. cbn. eexists. ands; reflexivity.
  - destruct fuel; cbn; unfold ws_finalize; cbn; eexists; ands; reflexivity.
  - destruct fuel; cbn; unfold ws_finalize; cbn; eexists; ands; reflexivity.
Qed.
Print Assumptions C53_workset_idle.
(** A derived class that always inserts its element twice: the limit of rounds ends the run with elements waiting. *)
Definition doubling (_ : bool) (s n : nat) : nat * list nat * bool := (Datatypes.S s, [n; n], true).
Example C53_doubling : option_map (option_map (fun w => (ws_s w, ws_done w, List.length (ws_work w ++ ws_next w)))) (ws_run false doubling 60 (ws_init 3 0 [5])) = Some (Some (32, false, 33)).
Proof. vm_compute. reflexivity. Qed.
