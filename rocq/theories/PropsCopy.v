(** C52: copies of automata. *)
From Coq Require Import List Arith Lia Bool.
From Verif Require Import Base BaseFacts Spec AutModel PreStarModel NfaModel CopyModel CopyProof.
Import ListNotations.

(** The copy constructor of PAutomaton: the copy has the same states, edges and language, with whatever order of its hash tables, and so
   has the original, whatever is done afterwards through the other one, which may be changed or destroyed. It only fails if there is
   no memory. *)
Theorem C52_automaton_copy : forall alloc ord h o A ix, NoDup (o_states o) -> read_aut ord h o = Some (A, ix) ->
  match pa_copy alloc h o with
  | None => out_of_memory alloc
  | Some (h', o') =>
      (forall ord', exists A', read_aut ord' h' o' = Some (A', ix) /\ a_acc A' = a_acc A /\ a_edges A' = a_edges A /\ forall n c, aut_lang n A' c <-> aut_lang n A c) /\
      read_aut ord h' o = Some (A, ix) /\
      (forall ms h2 o2, do_mops alloc ms (h', o') = Some (h2, o2) -> read_aut ord h2 o = Some (A, ix)) /\
      (forall ms h2 o2, do_mops alloc ms (h', o) = Some (h2, o2) -> read_aut ord h2 o' = Some (A, ix))
  end.
Proof.
  intros alloc ord h o A ix ND HR. assert (S := pa_copy_spec alloc ord h o (A, ix) ND HR). assert (AL := read_aut_alloc _ _ _ _ HR). destruct (pa_copy alloc h o) as [[h' o']|]; [|exact S]. destruct S as (H1 & H2 & [H3 H4] & H5).
  assert (HO : read_aut ord h' o = Some (A, ix)) by (rewrite <- HR; apply read_aut_local; auto). assert (AL' : forall a, In a (o_states o) -> h' a <> None) by (intros a Ha; rewrite H2; auto).
  split; [|split; [auto|split]].
  - intros ord'. unfold read_aut in *. destruct (omap h' (o_states o')) as [cs|]; [|discriminate]. cbn [obind] in *. destruct (omap (index_ptr (o_states o')) (o_init o')) as [is|]; [|discriminate]. cbn [obind] in *.
    destruct (omap (index_ptr (o_states o')) (o_accs o')) as [fs|]; [|discriminate]. cbn [obind] in *. injection H1 as HA Hi. subst A ix. eexists. split; [reflexivity|]. cbn [a_acc a_edges]. split; auto. split; auto. intros n c. reflexivity.
  - intros ms h2 o2 E. rewrite <- HO. apply read_aut_local. apply (mops_apart _ alloc ms h' o' h2 o2 o E); auto.
  - intros ms h2 o2 E. rewrite <- H1. apply read_aut_local. apply (mops_apart _ alloc ms h' o h2 o2 o' E); auto. intros a Ha Hb. apply (H5 a); auto.
Qed.
Print Assumptions C52_automaton_copy.
(** The same for the copy constructor of NFA, whose states point to each other. *)
Theorem C52_nfa_copy : forall alloc h o N, NoDup (o_states o) -> read_nfa h o = Some N ->
  match nfa_copy alloc h o with
  | None => out_of_memory alloc
  | Some (h', o') =>
      read_nfa h' o' = Some N /\ read_nfa h' o = Some N /\
      (forall ms h2 o2, do_mops alloc ms (h', o') = Some (h2, o2) -> read_nfa h2 o = Some N) /\
      (forall ms h2 o2, do_mops alloc ms (h', o) = Some (h2, o2) -> read_nfa h2 o' = Some N)
  end.
Proof.
  intros alloc h o N ND HR. assert (S := nfa_copy_spec alloc h o N ND HR). assert (AL := read_nfa_alloc _ _ _ HR). destruct (nfa_copy alloc h o) as [[h' o']|]; [|exact S]. destruct S as (H1 & H2 & [H3 H4] & H5).
  assert (HO : read_nfa h' o = Some N) by (rewrite <- HR; apply read_nfa_local; auto). assert (AL' : forall a, In a (o_states o) -> h' a <> None) by (intros a Ha; rewrite H2; auto).
  split; auto. split; auto. split.
  - intros ms h2 o2 E. rewrite <- HO. apply read_nfa_local. apply (mops_apart _ alloc ms h' o' h2 o2 o E); auto.
  - intros ms h2 o2 E. rewrite <- H1. apply read_nfa_local. apply (mops_apart _ alloc ms h' o h2 o2 o' E); auto. intros a Ha Hb. apply (H5 a); auto.
Qed.
Print Assumptions C52_nfa_copy.

(** Assignment to an NFA that has states already. *)
Definition first_free {C} (h : heap C) : nat := match find (fun a => match h a with None => true | Some _ => false end) (seq 0 100) with Some a => a | None => 0 end.
(** An NFA for the word [7] at the addresses 4 and 9. *)
Definition nfa_heap : heap hstate := write (write (fun _ => None) 4 (Some (mk_hstate [mk_hedge false false [7] (Some 9)] false))) 9 (Some (mk_hstate [] true)).
Definition nfa_obj : obj := mk_obj [4; 9] [Some 4] [Some 9].
Definition nfa_seven : nfa := nfa_set false [7].
Definition got {C} (r : option (heap C * obj)) : heap C * obj := match r with Some x => x | None => (fun _ => None, no_obj) end.
Definition ex_copy := Eval vm_compute in got (nfa_copy first_free nfa_heap nfa_obj).
Definition ex_new := Eval vm_compute in got (nfa_new first_free nfa_heap true).
Definition ex_assign := Eval vm_compute in got (nfa_assign first_free (fst ex_new) (snd ex_new) nfa_obj).
Definition ex_assign2 := Eval vm_compute in got (nfa_assign first_free (fst ex_copy) nfa_obj (snd ex_copy)).
Definition ex_ops : list (mop hstate) := [MMod 0 (fun sts c => mk_hstate (hs_edges c ++ [mk_hedge true false [] (nth_error sts 1)]) (hs_acc c)); MFree].
Definition ex_after := Eval vm_compute in got (do_mops first_free ex_ops ex_copy).
Example C52_example : NoDup (o_states nfa_obj) /\ read_nfa nfa_heap nfa_obj = Some nfa_seven /\
  nfa_copy first_free nfa_heap nfa_obj = Some ex_copy /\ o_states (snd ex_copy) = [0; 1] /\ read_nfa (fst ex_copy) (snd ex_copy) = Some nfa_seven /\
  do_mops first_free ex_ops ex_copy = Some ex_after /\ read_nfa (fst ex_after) nfa_obj = Some nfa_seven /\ read_nfa (fst ex_after) (snd ex_copy) = None.
Proof. split; [repeat constructor; cbn; intuition lia|]. repeat (split; [vm_compute; reflexivity|]). vm_compute. reflexivity. Qed.
(** NFA a; a = b: the default constructor makes an accepting state, which stays, so the empty word is accepted although b does not. *)
Theorem C52_nfa_assign_refuted : exists h1 this h2 o N, nfa_new first_free nfa_heap true = Some (h1, this) /\ read_nfa h1 nfa_obj = Some nfa_seven /\
  nfa_assign first_free h1 this nfa_obj = Some (h2, o) /\ read_nfa h2 o = Some N /\ nfa_lang N [] /\ ~ nfa_lang nfa_seven [].
Proof.
  exists (fst ex_new), (snd ex_new), (fst ex_assign), (snd ex_assign). eexists. split; [vm_compute; reflexivity|]. split; [vm_compute; reflexivity|]. split; [vm_compute; reflexivity|]. split; [vm_compute; reflexivity|]. split.
  - exists 0, 0. split; [cbn; auto|]. split; [constructor|]. eexists. split; reflexivity.
  - intros (i & f & Hi & Hp & Hf). cbn in Hi. destruct Hi as [<-|[]]. inversion Hp as [q|q l q1 w q2 He Hr|q q1 w q2 He Hr]; subst.
    + destruct Hf as (st & E & Ha). cbn in E. injection E as <-. discriminate.
    + destruct He as (st & e & E & Hin & _ & Hep). cbn in E. injection E as <-. cbn in Hin. destruct Hin as [<-|[]]. discriminate.
Qed.
Print Assumptions C52_nfa_assign_refuted.
(** If the NFA assigned to has edges, their destinations become null pointers: here one of two NFAs of one symbol is assigned to the
   other. *)
Theorem C52_nfa_assign_null_refuted : exists h1 o1 h2 o c e, nfa_copy first_free nfa_heap nfa_obj = Some (h1, o1) /\
  read_nfa h1 o1 = Some nfa_seven /\ read_nfa h1 nfa_obj = Some nfa_seven /\ nfa_assign first_free h1 nfa_obj o1 = Some (h2, o) /\
  h2 4 = Some c /\ In e (hs_edges c) /\ he_dst e = None /\ In (Some 4) (o_init o).
Proof.
  exists (fst ex_copy), (snd ex_copy), (fst ex_assign2), (snd ex_assign2). eexists. exists (mk_hedge false false [7] None). split; [vm_compute; reflexivity|]. split; [vm_compute; reflexivity|]. split; [vm_compute; reflexivity|]. split; [vm_compute; reflexivity|].
  split; [vm_compute; reflexivity|]. split; [left; reflexivity|]. split; [reflexivity|]. left. reflexivity.
Qed.
Print Assumptions C52_nfa_assign_null_refuted.
