(** Model of internal::PostStarSaturation<W,ET> (src/include/pdaaal/internal/PdaSaturation.h 339-492). *)
From Coq Require Import List Arith Lia Bool ZArith.
From Verif Require Import Base Spec PdaModel AutModel PreStarModel.
Import ListNotations.

Section PostStar.
  Variable P : pda.
  Variable X : Type.
  (** The callback (60, 347, 416, 424), as in PreStarModel. *)
  Variable et : option (aut -> X -> edge -> trace -> option (bool * X)).

  (** Members, 358-370. [q_rel1] holds the entries of _rel1 as edges, [q_rel2] those of _rel2 as (to, from), both newest
      first; [q_qp] is _q_prime. _n_automaton_states is the size of the automaton. *)
  Record post_st := mk_post {
    q_aut : aut;
    q_nQ : nat;
    q_qp : list ((nat * nat) * nat);
    q_ws : list edge;                 (* std::queue: front = head *)
    q_rel1 : list edge;
    q_rel2 : list (nat * nat);
    q_found : bool;
    q_x : X }.

  (** _q_prime.find, 454-455. *)
  Fixpoint qp_find (k : nat * nat) (l : list ((nat * nat) * nat)) : option nat :=
    match l with
    | [] => None
    | (k', v) :: l' => if Nat.eqb (fst k') (fst k) && Nat.eqb (snd k') (snd k) then Some v else qp_find k l'
    end.

  (** One rule of the loop 374-383. *)
  Definition qp_rule (am : aut * list ((nat * nat) * nat)) (x : rule * labels) : aut * list ((nat * nat) * nat) :=
    match r_op (fst x) with
    | PUSH => match qp_find (r_to (fst x), r_opl (fst x)) (snd am) with
              | Some _ => am
              | None => (a_add_state (fst am) false, ((r_to (fst x), r_opl (fst x)), a_size (fst am)) :: snd am)
              end
    | _ => am
    end.
  Definition qp_init (A : aut) : aut * list ((nat * nat) * nat) :=
    fold_left (fun am s => fold_left qp_rule (ps_rules s) am) (pd_states P) (A, []).

  (** insert_rel, 404-411. *)
  Definition insert_rel (st : post_st) (e : edge) : option post_st :=
    r1 <- (if Nat.leb (pd_n P) (e_src e)
           then if Nat.ltb (e_src e) (a_size (q_aut st)) then Some (e :: q_rel1 st) else None
           else Some (q_rel1 st)) ;;
    r2 <- (match e_lab e with
           | None => if Nat.leb (q_nQ st) (e_dst e)
                     then if Nat.ltb (e_dst e) (a_size (q_aut st)) then Some ((e_dst e, e_src e) :: q_rel2 st) else None
                     else Some (q_rel2 st)
           | Some _ => Some (q_rel2 st)
           end) ;;
    Some (mk_post (q_aut st) (q_nQ st) (q_qp st) (q_ws st) r1 r2 (q_found st) (q_x st)).

  Definition post_push (st : post_st) (e : edge) : post_st :=
    mk_post (q_aut st) (q_nQ st) (q_qp st) (q_ws st ++ [e]) (q_rel1 st) (q_rel2 st) (q_found st) (q_x st).
  Definition post_set_aut (st : post_st) (A : aut) : post_st :=
    mk_post A (q_nQ st) (q_qp st) (q_ws st) (q_rel1 st) (q_rel2 st) (q_found st) (q_x st).

  (** initialize, 372-403: loop over the edges of one state, 390-402. The assertion 393 (no epsilon edge) is modelled as
      undefined. *)
  Definition post_init_state (st : post_st) (q : nat) : option post_st :=
    ofold (fun st t =>
      ofold (fun st l =>
        match l with
        | None => None
        | Some _ => if Nat.ltb q (pd_n P) then Some (post_push st (mk_edge q l t)) else insert_rel st (mk_edge q l t)
        end) (labels_between (q_aut st) q t) st) (tos (q_aut st) q) st.

  (** Constructor and initialize, 347-351, 372-403. _rel1.resize(N - n_pda) needs n_pda <= N. *)
  Definition post_init (A : aut) (x : X) : option post_st :=
    let am := qp_init A in
    if Nat.leb (pd_n P) (a_size (fst am)) then
      ofold post_init_state (seq 0 (a_size (fst am))) (mk_post (fst am) (a_size A) (snd am) [] [] [] false x)
    else None.

  (** "_found = _found || _early_termination(...)" after an edge was added, 415-417 and 423-425. *)
  Definition post_et (st : post_st) (e : edge) (t : trace) : option post_st :=
    match et with
    | None => Some st
    | Some f =>
        if q_found st then Some st
        else bx <- f (q_aut st) (q_x st) e t ;;
             Some (mk_post (q_aut st) (q_nQ st) (q_qp st) (q_ws st) (q_rel1 st) (q_rel2 st) (fst bx) (snd bx))
    end.

  (** insert_edge, 412-419. *)
  Definition post_insert (st : post_st) (e : edge) (t : trace) : option post_st :=
    af <- emplace_edge (q_aut st) e t ;;
    if snd af then post_et (post_push (post_set_aut st (fst af)) e) e t else Some st.

  (** insert_edge_rel, 420-427. *)
  Definition post_insert_rel (st : post_st) (e : edge) (t : trace) : option post_st :=
    af <- emplace_edge (q_aut st) e t ;;
    if snd af then st1 <- insert_rel (post_set_aut st (fst af)) e ;; post_et st1 e t else Some st.

  (** _rel1[q - n_pda] and _rel2[q - n_Q] in order of insertion. *)
  Definition rel1_of (st : post_st) (q : nat) : option (list edge) :=
    if Nat.leb (pd_n P) q && Nat.ltb q (a_size (q_aut st))
    then Some (rev (filter (fun e => Nat.eqb (e_src e) q) (q_rel1 st))) else None.
  Definition rel2_of (st : post_st) (q : nat) : option (list nat) :=
    if Nat.leb (q_nQ st) q && Nat.ltb q (a_size (q_aut st))
    then Some (rev (map snd (filter (fun x => Nat.eqb (fst x) q) (q_rel2 st)))) else None.

  (** One rule of the loop 443-467. [l] is t._label. *)
  Definition post_rule (t : edge) (l : nat) (st : post_st) (x : nat * (rule * labels)) : option post_st :=
    let id := fst x in let r := fst (snd x) in let ls := snd (snd x) in
    if contains ls l then
      let tr := TPost (e_src t) id l in
      match r_op r with
      | POP => post_insert st (mk_edge (r_to r) None (e_dst t)) tr
      | SWAP => post_insert st (mk_edge (r_to r) (Some (r_opl r)) (e_dst t)) tr
      | NOOP => post_insert st (mk_edge (r_to r) (Some l) (e_dst t)) tr
      | PUSH =>
          qn <- qp_find (r_to r, r_opl r) (q_qp st) ;;
          st1 <- post_insert st (mk_edge (r_to r) (Some (r_opl r)) qn) tr ;;
          st2 <- post_insert_rel st1 (mk_edge qn (Some l) (e_dst t)) tr ;;
          fs <- rel2_of st2 qn ;;
          ofold (fun st f => post_insert st (mk_edge f (Some l) (e_dst t)) (TEps qn)) fs st2
      end
    else Some st.

  (** step, 430-476. None: undefined behaviour, a failing assertion (435), or an empty queue. *)
  Definition post_step (st : post_st) : option post_st :=
    match q_ws st with
    | [] => None
    | t :: ws =>
        if Nat.ltb (e_dst t) (pd_n P) then None
        else
          st1 <- insert_rel (mk_post (q_aut st) (q_nQ st) (q_qp st) ws (q_rel1 st) (q_rel2 st) (q_found st) (q_x st)) t ;;
          match e_lab t with
          | Some l =>
              s <- nth_error (pd_states P) (e_src t) ;;
              ofold (post_rule t l) (enum (ps_rules s)) st1
          | None =>
              es <- rel1_of st1 (e_dst t) ;;
              ofold (fun st e => post_insert st (mk_edge (e_src t) (e_lab e) (e_dst e)) (TEps (e_dst t))) es st1
          end
    end.

  (** run, 483-491, with fuel. Outer None: undefined; inner None: out of fuel. *)
  Fixpoint post_run (fuel : nat) (st : post_st) : option (option (post_st * bool)) :=
    match q_ws st with
    | [] => Some (Some (st, q_found st))
    | _ :: _ =>
        if (match et with Some _ => q_found st | None => false end) then Some (Some (st, true))
        else match fuel with
             | 0 => Some None
             | S f => match post_step st with None => None | Some st' => post_run f st' end
             end
    end.
End PostStar.
Arguments mk_post {X}.
Arguments q_aut {X}. Arguments q_nQ {X}. Arguments q_qp {X}. Arguments q_ws {X}. Arguments q_rel1 {X}. Arguments q_rel2 {X}.
Arguments q_found {X}. Arguments q_x {X}.
