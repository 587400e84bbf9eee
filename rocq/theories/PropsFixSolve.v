(** C59, C60: best weights of the paths of an automaton, and the fixed-point queries by pre*. *)
From Coq Require Import List Arith Lia Bool ZArith Permutation.
From Verif Require Import Base BaseFacts Spec SpecFacts PdaModel PdaProof AutModel AutProof PreStarModel PreStarProof PreStarLang PostStarModel PostStarProof
  PathModel QueryModel QueryProof SolverModel SolverProof ProductModel ProductProof VerdictModel VerdictProof UtilModel ShortSpec ShortModel PostShortProof ShortProof StoreProof ExHelp PropsSaturation PropsShort
  FixSpec FixModel FixChain FixPre1 FixPre2 FixPre3 FixPre4 FixPre5 FixPre6 FixPath FixPath2 FixSolveModel FixSolveProof PropsFix.
Import ListNotations.

(** Weights of the accepting paths from one of the first n states. *)
Definition path_weight (n : nat) (A : faut) (v : option Z) : Prop := exists p w f, p < n /\ ipath (aut_edges (fa_aut A)) (fa_wt A) p w v f /\ aut_final (fa_aut A) f.
(** What the answer of PAutomatonFixedPoint should mean: no accepting path, the best weight, or infinite. *)
Definition best_of (mx : bool) (n : nat) (A : faut) (o : option (option Z)) : Prop :=
  match o with
  | None => forall v, ~ path_weight n A v
  | Some (Some x) => path_weight n A (Some x) /\ forall v, path_weight n A v -> exists y, v = Some y /\ as_good mx (Some x) y
  | Some None => path_weight n A None \/ forall b, exists x, path_weight n A (Some x) /\ better mx x b
  end.

Lemma fle_as_good : forall mx x u, fle mx (Some x) u -> exists y, u = Some y /\ as_good mx (Some x) y.
Proof. intros mx x [y|] H; [|discriminate]. exists y. split; auto. apply fle_spec in H. unfold sg, as_good in *. destruct mx; lia. Qed.

Lemma path_weight_gp : forall n A v, path_weight n A v <-> exists k s, gp n A k v s /\ aut_final (fa_aut A) s.
Proof.
  intros n A v. split.
  - intros (p & w & f & Hp & Hi & Hf). destruct (proj2 (gp_ipath n A v f)) as [k Hk]; [exists p, w; auto|]. eauto.
  - intros (k & s & Hk & Hf). destruct (proj1 (gp_ipath n A v s)) as (p & w & Hp & Hi); [eauto|]. exists p, w, s. auto.
Qed.

(** * C59: PAutomatonFixedPoint. The computation ends without undefined behaviour. It finds the best weight of the accepting paths from the states
   of the PDA; it answers bottom if and only if some accepting path has an infinite weight or the weights can be improved for ever. *)
Theorem C59_path_fixed_point : forall n mx A, n <= a_size (fa_aut A) -> wf_ord (fa_aut A) ->
  (forall q l t, aut_edges (fa_aut A) q l t -> q < a_size (fa_aut A) /\ t < a_size (fa_aut A)) ->
  answers (fun fuel => fixed_point_paths n mx A fuel) (fun d => exists o, z_weight d = Some o /\ best_of mx n A o).
Proof.
  intros n mx A Hn HO RG. destruct (paths_run n mx A Hn HO RG) as [H1 H2]. split; auto. intros fuel. destruct (H1 fuel) as [H|(d & Hd & st & Fs & ->)]; auto. right. exists (fw_d st). split; auto.
  destruct (fini_weight n mx A st Fs) as (o & Ho & H). exists o. split; auto. unfold best_of. destruct o as [[x|]|].
  - destruct H as [(k & s & K1 & K2) H]. split; [apply path_weight_gp; eauto|]. intros v Hv. apply path_weight_gp in Hv. destruct Hv as (k' & s' & G1 & G2). apply fle_as_good. eauto.
  - destruct H as [(k & s & K1 & K2)|(s & Hf & U)]; [left; apply path_weight_gp; eauto|]. right. intros b. destruct (U (sg mx b)) as (k & x & K1 & K2). exists x. split; [apply path_weight_gp; eauto|].
    unfold sg, better in *. destruct mx; lia.
  - intros v Hv. apply path_weight_gp in Hv. destruct Hv as (k' & s' & G1 & G2). eapply H; eauto.
Qed.
Print Assumptions C59_path_fixed_point.

(** The three answers exclude each other. *)
Theorem C59_answer_unique : forall mx n A o o', best_of mx n A o -> best_of mx n A o' -> o = o'.
Proof.
  assert (G : forall mx x y, as_good mx (Some x) y -> as_good mx (Some y) x -> x = y) by (unfold as_good; intros [|] x y; lia).
  assert (B : forall mx n A x, best_of mx n A (Some (Some x)) -> ~ best_of mx n A (Some None)).
  { intros mx n A x [_ H] [K|K]; [destruct (H _ K) as (y & D & _); discriminate|]. destruct (K x) as (y & Hy & L). destruct (H _ Hy) as (z & D & Gz). injection D as <-. unfold as_good, better in *. destruct mx; lia. }
  assert (N : forall mx n A v, best_of mx n A (Some v) -> ~ best_of mx n A None).
  { intros mx n A [x|] H K; [destruct H as [H _]; eapply K; eauto|]. destruct H as [H|H]; [eapply K; eauto|]. destruct (H 0%Z) as (x & Hx & _). eapply K; eauto. }
  intros mx n A [[x|]|] [[y|]|] H H'; auto; try (exfalso; eapply B; eauto; fail); try (exfalso; eapply N; eauto; fail).
  destruct H as [H1 H2], H' as [K1 K2]. destruct (H2 _ K1) as (a & D1 & G1), (K2 _ H1) as (b & D2 & G2). injection D1 as <-. injection D2 as <-. f_equal. f_equal. eapply G; eauto.
Qed.
Print Assumptions C59_answer_unique.

(** A negative cycle through 1 that the accepting state is reached from; without it the best path has weight 2; none is reached from state 3. *)
Definition c59_aut (w : Z) (acc : list bool) : faut := mk_faut (mk_ex acc [(0, 0, 1); (1, 1, 1); (1, 0, 2); (0, 1, 2)]) [(mk_edge 0 (Some 1) 2, Some 5%Z); (mk_edge 1 (Some 1) 1, Some w); (mk_edge 1 (Some 0) 2, Some 2%Z)] [].
Definition zw (n : nat) (mx : bool) (A : faut) : option (option (option fwt)) := match fixed_point_paths n mx A 100 with Some (Some d) => w <- z_weight d ;; done w | _ => None end.
Example C59_example : zw 1 false (c59_aut 1 [false; false; true; false]) = Some (Some (Some (Some 2%Z))) /\ zw 1 true (c59_aut (-1) [false; false; true; false]) = Some (Some (Some (Some 5%Z))) /\
  zw 1 false (c59_aut (-1) [false; false; true; false]) = Some (Some (Some None)) /\ zw 1 true (c59_aut 1 [false; false; true; false]) = Some (Some (Some None)) /\
  zw 1 false (c59_aut (-1) [false; false; false; true]) = Some (Some None) /\ zw 1 false (c59_aut (-1) [true; false; false; true]) = Some (Some (Some (Some 0%Z))).
Proof. vm_compute. auto 10. Qed.

(** * C60: the queries ShortestFixedPoint ([mx] = false) and Longest ([mx] = true) by pre*. *)
Definition fix_answer (mx : bool) (R : wpds) (L1 L2 : config -> Prop) (b : bool) (o : option (option Z)) : Prop :=
  match o with
  | None => b = false /\ forall v, ~ run_weight R L1 L2 v
  | Some (Some v) => b = true /\ best_weight mx R L1 L2 v
  | Some None => b = true /\ unbounded mx R L1 L2
  end.

Lemma run_weight_sub : forall R L1 L2 v, run_weight R L1 L2 v <-> exists p w, L1 (p, w) /\ run_weight R (eq (p, w)) L2 v.
Proof.
  intros R L1 L2 v. split.
  - intros ([p w] & c2 & H1 & H2 & H3). exists p, w. split; auto. exists (p, w), c2. auto.
  - intros (p & w & H & c1 & c2 & <- & H2 & H3). exists (p, w), c2. auto.
Qed.

(** What follows once the saturation has ended. *)
Lemma fixed_query_prod : forall nlab us mx ord init fin, let P := build nlab us in let n := pd_n P in
  Forall (wf_urule nlab) us -> lookup_safe us -> (forall q l, Permutation (ord q l) l) ->
  aut_wf (fa_aut init) -> n <= a_size (fa_aut init) -> (forall q t, aut_edges (fa_aut init) q None t -> fa_weight init (mk_edge q None t) = Some 0%Z) ->
  pre_ok P (fa_aut fin) -> no_in P (fa_aut fin) -> 2 <= length (a_edges (fa_aut fin)) ->
  let L1 := aut_lang n (fa_aut init) in let L2 := aut_lang n (fa_aut fin) in
  forall st, final P mx fin st -> exists wp, wprod_ok n (x_aut (fw_d st)) init wp /\
  (forall fuel, pre_star_fixed_point P mx fuel fin = done (x_aut (fw_d st)) -> pre_star_fixed_point_accepts P mx fuel ord init fin = done (has_accepting (wp_pr wp), (x_aut (fw_d st), wp))) /\
  n <= a_size (pr_aut (wp_pr wp)) /\ wf_ord (pr_aut (wp_pr wp)) /\
  (forall q l t, aut_edges (pr_aut (wp_pr wp)) q l t -> q < a_size (pr_aut (wp_pr wp)) /\ t < a_size (pr_aut (wp_pr wp))) /\
  forall o, best_of mx n (wp_faut wp) o -> fix_answer mx (user_wrules nlab us) L1 L2 (has_accepting (wp_pr wp)) o.
Proof.
  intros nlab us mx ord init fin P n W LS HO WI0 HI ZI OK NI TWO L1 L2.
  assert (HB : forall sr w, pda_wrules P sr w <-> user_wrules nlab us sr w) by (apply build_wrules; auto).
  assert (WP : wf_pda P) by (apply build_wf; auto).
  assert (RG : forall e, In e (map fst (a_edges (fa_aut fin))) -> in_range P (fa_aut fin) e) by (intros e He; eapply pre_ok_range; eauto).
  assert (T2 : 2 <= length (map fst (a_edges (fa_aut fin)))) by (rewrite map_length; auto).
  intros st FI. set (A := x_aut (fw_d st)) in *. assert (B := f_base _ _ _ _ FI).
  assert (HS : a_size (fa_aut A) = a_size (fa_aut fin)) by (unfold a_size, A; rewrite (xb_acc _ _ _ B); auto).
  assert (WA : aut_wf (fa_aut A)). { constructor; [unfold wf_ord, A; rewrite (xb_ord _ _ _ B); apply (po_ord _ _ OK)|]. intros q l t He. destruct (xb_range _ _ _ B _ He) as (X1 & X2 & _). cbn in X1, X2. rewrite HS. auto. }
  assert (LA : n <= a_size (fa_aut A)) by (rewrite HS; apply (po_n _ _ OK)).
  assert (NE : forall q t, ~ aut_edges (fa_aut A) q None t). { intros q t He. destruct (xb_range _ _ _ B _ He) as (_ & _ & l & X & _). discriminate. }
  destruct (pr_new_spec n (fa_aut A) (fa_aut init) false LA HI ord HO) as (pr & E0 & PB & _).
  assert (E1 : pr_new n ord (fa_aut init) (fa_aut fin) = Some pr). { rewrite pr_new_swap. rewrite <- E0. unfold pr_new. rewrite HS. unfold A. rewrite (xb_acc _ _ _ B). reflexivity. }
  assert (EE : a_edges (pr_aut pr) = []). { unfold pr_new in E0. destruct (Nat.leb n (a_size (fa_aut A)) && Nat.leb n (a_size (fa_aut init))); [|discriminate]. injection E0 as <-. reflexivity. }
  destruct (wp_initialize_spec n A init WA WI0 LA HI pr PB EE) as (b & wp & E2 & O & ->). exists wp. split; auto.
  assert (PS := pb_size _ _ _ _ _ (pb_0 _ _ _ _ _ (wo_b _ _ _ _ O))). unfold psz in PS. split; [|split; [|split; [|split]]].
  - intros fuel Hf. unfold pre_star_fixed_point_accepts. fold n. rewrite E1. cbn [obind]. rewrite Hf. unfold done at 1. rewrite E2. reflexivity.
  - lia.
  - apply (pb_ord _ _ _ _ _ (pb_0 _ _ _ _ _ (wo_b _ _ _ _ O))).
  - intros q l t He. destruct (pb_edges _ _ _ _ _ (pb_0 _ _ _ _ _ (wo_b _ _ _ _ O)) _ _ _ He) as (a & b & a' & b' & P1 & P2 & _).
    split; apply (pair_lt n (fa_aut A) (fa_aut init) false LA HI (wp_pr wp) _ (pb_0 _ _ _ _ _ (wo_b _ _ _ _ O))); eauto.
  - assert (PW : forall v, path_weight n (wp_faut wp) v <-> exists p w f, p < n /\ ipath (aut_edges (fa_aut A)) (wF A) p w v f /\ aut_final (fa_aut A) f /\ L1 (p, w)).
    { intros v. apply (wprod_accepting n A init LA HI NE ZI wp v O). }
    assert (RS : forall v, path_weight n (wp_faut wp) (Some v) -> run_weight (user_wrules nlab us) L1 L2 v).
    { intros v Hv. apply PW in Hv. destruct Hv as (p & w & f & Hp & Hi & Hf & Hl). apply run_weight_sub. exists p, w. split; auto. apply (run_weight_iff _ _ _ _ _ HB). eapply fl_sound; eauto. apply (po_n _ _ OK). }
    assert (RC : forall v, run_weight (user_wrules nlab us) L1 L2 v -> exists u, path_weight n (wp_faut wp) u /\ as_good mx u v).
    { intros v Hv. apply run_weight_sub in Hv. destruct Hv as (p & w & Hl & Hr). apply (run_weight_iff _ _ _ _ _ HB) in Hr. destruct (fl_complete P mx fin (po_n _ _ OK) T2 st FI p w v Hr) as (f & u & U1 & U2 & U3).
      exists u. split; auto. apply PW. exists p, w, f. ands; auto. apply Hl. }
    assert (RB : path_weight n (wp_faut wp) None -> unbounded mx (user_wrules nlab us) L1 L2).
    { intros Hv. apply PW in Hv. destruct Hv as (p & w & f & Hp & Hi & Hf & Hl). assert (U : unbounded mx (user_wrules nlab us) (eq (p, w)) L2) by (apply (unbounded_iff _ _ _ _ _ HB); eapply fl_bottom; eauto; apply (po_n _ _ OK)).
      intros b. destruct (U b) as (v & Hv & Hb). exists v. split; auto. apply run_weight_sub. eauto. }
    assert (HA : forall v, path_weight n (wp_faut wp) v -> has_accepting (wp_pr wp) = true).
    { intros v (p & w & f & _ & _ & Hf). apply has_accepting_spec; eauto. }
    intros o Ho. unfold fix_answer. destruct o as [[x|]|]; cbn in Ho.
    + destruct Ho as [H1 H2]. split; [eapply HA; eauto|]. split; auto. intros v' Hv. destruct (RC v' Hv) as (u & U1 & U2). destruct (H2 u U1) as (y & -> & Hy). unfold as_good in *. destruct mx; lia.
    + destruct Ho as [H|H]; [split; [eapply HA; eauto|auto]|]. split; [destruct (H 0%Z) as (x & Hx & _); eapply HA; eauto|]. intros b. destruct (H b) as (x & Hx & Hb). eauto.
    + split; [|intros v Hv; destruct (RC v Hv) as (u & U1 & _); eapply Ho; eauto].
      destruct (has_accepting (wp_pr wp)) eqn:Ea; auto. exfalso. apply has_accepting_spec in Ea; auto. destruct Ea as [id Hid].
      assert (Lid : id < psz (wp_pr wp)) by (apply nth_error_lt in Hid; auto). destruct (pb_reach _ _ _ _ _ (wo_b _ _ _ _ O) id Lid) as (p & w & Hp & Hw).
      assert (IP : exists v, ipath (aut_edges (fa_aut (wp_faut wp))) (fa_wt (wp_faut wp)) p w v id).
      { clear - Hw. induction Hw as [q|q l q1 w q2 He Hp' IH|q q1 w q2 He Hp' IH]; [exists (Some 0%Z); constructor|..]; destruct IH as [v Hv]; eexists; [apply (ip_cons _ _ q (Some l) q1 w v q2); eauto|apply (ip_cons _ _ q None q1 w v q2); eauto]. }
      destruct IP as [v Hv]. apply (Ho v). exists p, w, id. auto.
Qed.

(** For the final automaton with default annotations and at least two edges, and an initial automaton whose epsilon edges have weight zero, the query
   ends without undefined behaviour, its verdict tells whether a run from the initial to the final configurations exists, and its weight is the
   best weight of these runs, bottom if they can be improved for ever, or max() if there are none. *)
Theorem C60_fixed_point_query : forall nlab us mx ord init fin, let P := build nlab us in let n := pd_n P in
  Forall (wf_urule nlab) us -> lookup_safe us -> (forall q l, Permutation (ord q l) l) ->
  aut_wf (fa_aut init) -> n <= a_size (fa_aut init) -> (forall q t, aut_edges (fa_aut init) q None t -> fa_weight init (mk_edge q None t) = Some 0%Z) ->
  pre_ok P (fa_aut fin) -> no_in P (fa_aut fin) ->
  (forall e t, In (e, t) (a_edges (fa_aut fin)) -> t = TNull /\ fa_trace2 fin e = TNull /\ fa_weight fin e = Some 0%Z) ->
  2 <= length (a_edges (fa_aut fin)) ->
  answers (fun fuel => solve_fixed_point P mx fuel ord init fin)
    (fun r => fix_answer mx (user_wrules nlab us) (aut_lang n (fa_aut init)) (aut_lang n (fa_aut fin)) (fst r) (snd r)).
Proof.
  intros nlab us mx ord init fin P n W LS HO WI0 HI ZI OK NI DF TWO.
  assert (HB : forall sr w, pda_wrules P sr w <-> user_wrules nlab us sr w) by (apply build_wrules; auto).
  assert (WP : wf_pda P) by (apply build_wf; auto).
  assert (LK : lookup_ok P) by (apply lookup_safe_ok; auto).
  assert (RG : forall e, In e (map fst (a_edges (fa_aut fin))) -> in_range P (fa_aut fin) e) by (intros e He; eapply pre_ok_range; eauto).
  assert (T2 : 2 <= length (map fst (a_edges (fa_aut fin)))) by (rewrite map_length; auto).
  destruct (pre_fix_run P WP LK mx fin (po_n _ _ OK) (po_ord _ _ OK) NI (po_nd _ _ OK) RG DF T2) as [R1 R2].
  set (L1 := aut_lang n (fa_aut init)). set (L2 := aut_lang n (fa_aut fin)).
  assert (K := fixed_query_prod nlab us mx ord init fin W LS HO WI0 HI ZI OK NI TWO). cbv zeta in K. fold P n L1 L2 in K.
  assert (SE : forall fuel A wp b, pre_star_fixed_point_accepts P mx fuel ord init fin = done (b, (A, wp)) -> solve_fixed_point P mx fuel ord init fin =
    match fixed_point_paths n mx (wp_faut wp) fuel with Some (Some d) => o <- z_weight d ;; done (b, o) | Some None => Some None | None => None end).
  { intros fuel A wp b H. unfold solve_fixed_point, fixed_point_weight. rewrite H. unfold done at 1. cbn [fst snd]. fold n. destruct (fixed_point_paths n mx (wp_faut wp) fuel) as [[d|]|]; auto. destruct (z_weight d); auto. }
  split.
  - intros fuel. destruct (R1 fuel) as [H|(A & H & st & FI & ->)].
    + left. unfold solve_fixed_point, pre_star_fixed_point_accepts. destruct (pr_new_spec n (fa_aut init) (fa_aut fin) false HI (po_n _ _ OK) ord HO) as (pr & E0 & _). fold n. rewrite E0. cbn [obind]. rewrite H. reflexivity.
    + destruct (K st FI) as (wp & O & E & C1 & C2 & C3 & C4). rewrite (SE _ _ _ _ (E fuel H)).
      destruct (proj1 (C59_path_fixed_point n mx (wp_faut wp) C1 C2 C3) fuel) as [D|(d & D & o & O1 & O2)]; rewrite D; auto.
      right. unfold done at 1. rewrite O1. cbn [obind]. exists (has_accepting (wp_pr wp), o). split; [reflexivity|]. cbn [fst snd]. apply C4. auto.
  - destruct R2 as [b1 R2]. destruct (R1 b1) as [H|(A & H & st & FI & ->)]; [exfalso; apply (R2 b1); auto|].
    destruct (K st FI) as (wp & O & E & C1 & C2 & C3 & C4). destruct (proj2 (C59_path_fixed_point n mx (wp_faut wp) C1 C2 C3)) as [b2 H2]. exists (b1 + b2). intros fuel L.
    assert (HM : pre_star_fixed_point P mx fuel fin = done (x_aut (fw_d st))).
    { revert H. unfold pre_star_fixed_point. destruct (x_init P mx fin) as [s0|]; [|discriminate]. cbn [obind]. unfold fw_run, fw_finalize.
      destruct (fw_loop xd edge sort_edges (x_step_with P mx) false b1 s0) as [[s1|]|] eqn:L1'; try discriminate. rewrite (fw_loop_mono _ _ _ _ false b1 s0 s1 fuel L1') by lia.
      destruct (fw_loop xd edge sort_edges (x_step_with P mx) true b1 _) as [[s2|]|] eqn:L2'; try discriminate. rewrite (fw_loop_mono _ _ _ _ true b1 _ s2 fuel L2') by lia. auto. }
    rewrite (SE _ _ _ _ (E fuel HM)). specialize (H2 fuel). destruct (fixed_point_paths n mx (wp_faut wp) fuel) as [[d|]|]; try discriminate; [|exfalso; apply H2; auto; lia].
    destruct (z_weight d) as [o|]; cbn [obind]; discriminate.
Qed.
Print Assumptions C60_fixed_point_query.

(** From (0, [0]) the least weight is 2 and the greatest 4; if (1, [0]) may be taken as well the weights can be lowered for ever; (2, [0; 0]) is not in the target. *)
Definition c60 (mx : bool) (es : list (nat * nat * nat)) : option (option (bool * option fwt)) :=
  solve_fixed_point (build 2 c32_rules) mx 100 (fun _ l => l) (fa_ex [false; false; false; false; true] es) c32_target.
Example C60_example_hyps : aut_wf (fa_aut (fa_ex [false; false; false; false; true] [(0, 0, 4); (1, 0, 4)])) /\ pd_n (build 2 c32_rules) <= a_size (fa_aut (fa_ex [false; false; false; false; true] [(0, 0, 4); (1, 0, 4)])).
Proof. split; [|vm_compute; lia]. constructor; [intros q l; apply Permutation_refl|]. intros q l q' H. cbn in H. destruct H as [H|[H|[]]]; injection H as <- <- <-; cbn; lia. Qed.
Example C60_example : c60 false [(0, 0, 4)] = done (true, Some (Some 2%Z)) /\ c60 true [(0, 0, 4)] = done (true, Some (Some 4%Z)) /\
  c60 false [(0, 0, 4); (1, 0, 4)] = done (true, Some None) /\ c60 true [(0, 0, 4); (1, 0, 4)] = done (true, Some (Some 4%Z)) /\
  c60 false [(2, 0, 3); (3, 0, 4)] = done (false, None).
Proof. vm_compute. auto 10. Qed.
