(** Models of trace_t (internal/PAutomaton.h), flags (utils/flags.h), priority_set (utils/more_algorithms.h) and
    fixed_point_workset (utils/workset.h). *)
From Coq Require Import List Arith Lia Bool NArith.
From Verif Require Import Base AutModel.
Import ListNotations.

(** *** trace_t, internal/PAutomaton.h 60-103: three machine words. *)
Definition max64 : N := 18446744073709551615%N.
Definition max32 : N := 4294967295%N.
Record words := mk_words { w_state : N; w_rule : N; w_label : N }.
(** trace_t(), 61-63 and 71. *)
Definition w_null : words := mk_words max64 max64 max32.
(** trace_t(rule_id, temp_state), 73-74. *)
Definition w_pre (rule temp : N) : words := mk_words temp rule (max32 - 1).
(** trace_t(from, rule_id, label), 76-77. *)
Definition w_post (from rule label : N) : words := mk_words from rule label.
(** trace_t(epsilon_state), 79-80. *)
Definition w_eps (q : N) : words := mk_words q max64 max32.
(** is_pre_trace 82-84, is_post_epsilon_trace 85-87, is_null 88-92. *)
Definition w_is_pre (t : words) : bool := N.eqb (w_label t) (max32 - 1).
Definition w_is_eps (t : words) : bool := N.eqb (w_label t) max32.
Definition w_is_null (t : words) : bool := N.eqb (w_state t) max64 && N.eqb (w_rule t) max64 && N.eqb (w_label t) max32.
(** operator==, 93-95 (the labels are only tested for being non-zero). *)
Definition w_eqb (l r : words) : bool :=
  N.eqb (w_state l) (w_state r) && N.eqb (w_rule l) (w_rule r) && negb (N.eqb (w_label l) 0) && negb (N.eqb (w_label r) 0).
(** operator<, 100-102. *)
Definition w_ltb (l r : words) : bool :=
  N.ltb (w_state l) (w_state r) || (N.eqb (w_state l) (w_state r) &&
    (N.ltb (w_rule l) (w_rule r) || (N.eqb (w_rule l) (w_rule r) && N.ltb (w_label l) (w_label r)))).

(** How the saturations write trace information: pre* for a rule that is not a PUSH passes the maximal size_t as
    temp_state (new_pre_trace and new_post_trace, internal/PAutomaton.h 828-839). *)
Definition enc_trace (t : trace) : words :=
  match t with
  | TNull => w_null
  | TPre r None => w_pre (N.of_nat r) max64
  | TPre r (Some q) => w_pre (N.of_nat r) (N.of_nat q)
  | TPost p r l => w_post (N.of_nat p) (N.of_nat r) (N.of_nat l)
  | TEps q => w_eps (N.of_nat q)
  end.
(** How get_trace reads it: is_null first, then is_pre_trace, then is_post_epsilon_trace, PdaSaturation.h 1108-1130. *)
Definition dec_trace (w : words) : trace :=
  if w_is_null w then TNull
  else if w_is_pre w then TPre (N.to_nat (w_rule w)) (if N.eqb (w_state w) max64 then None else Some (N.to_nat (w_state w)))
  else if w_is_eps w then TEps (N.to_nat (w_state w))
  else TPost (N.to_nat (w_state w)) (N.to_nat (w_rule w)) (N.to_nat (w_label w)).

(** *** flags<N>, utils/flags.h 37-93. [n] is the template parameter; masks are values of the unsigned type flag_t. *)
(** flag_t, 39-41: number of bits. *)
Definition flag_bits (n : N) : N :=
  if N.leb n 8 then 8 else if N.leb n 16 then 16 else if N.leb n 32 then 32 else 64.
(** Conversion to flag_t. *)
Definition to_flag (n x : N) : N := N.modulo x (N.pow 2 (flag_bits n)).
(** add 42, remove 43 ("mask &= ~flag"), select 44, contains 45, is_single_flag 46. *)
Definition fl_add (mask flag : N) : N := N.lor mask flag.
Definition fl_remove (n mask flag : N) : N := N.land mask (N.lxor flag (N.ones (flag_bits n))).
Definition fl_contains (mask flag : N) : bool := N.eqb (N.land mask flag) flag.
Definition fl_single (x : N) : bool := negb (N.eqb x 0) && N.eqb (N.land x (x - 1)) 0.
(** flag(i), 70-73 (and flag<I>, 48-56). None: the assertion fails. *)
Definition fl_flag (n i : N) : option N :=
  if N.leb i n then Some (if N.eqb i 0 then 0%N else to_flag n (N.shiftl 1 (i - 1))) else None.
(** fill(i), 74-82. *)
Definition fl_fill (n i : N) : option N :=
  if N.leb i n then
    Some (if N.eqb i 0 then 0%N
          else if N.eqb i n then let f := to_flag n (N.shiftl 1 (i - 1)) in N.lor f (f - 1)
          else to_flag n (to_flag n (N.shiftl 1 i) - 1))
  else None.
(** split_to_single_flags, 83-92. *)
Definition fl_split (n mask : N) : list N :=
  filter (fl_contains mask) (map (fun i => to_flag n (N.shiftl 1 (N.of_nat i))) (seq 0 (N.to_nat n))).
(** flag_mask, 95-119: got_flag 105-107, needs_flag 108-110, has_missing_flags 111-113, get_missing_flags 114-116. *)
Definition fm_got (n mask v : N) : N := fl_remove n mask v.
Definition fm_needs (mask v : N) : bool := fl_contains mask v.
Definition fm_has_missing (mask : N) : bool := negb (N.eqb mask 0).
Definition fm_missing (n mask : N) : list N := fl_split n mask.

(** *** priority_set, utils/more_algorithms.h 94-132. The heap is a list; [top] chooses the position of the element that
    std::priority_queue::top returns, which is some element that no other one exceeds under [comp]. *)
Section PrioritySet.
  Variables (W : Type) (top : list (W * nat) -> nat).
  Record pset := mk_pset { pq : list (W * nat); seen : list nat }.
  Definition remove_at {A} (i : nat) (l : list A) : list A := firstn i l ++ skipn (S i) l.
  (** emplace, 102-109. *)
  Definition ps_emplace (s : pset) (w : W) (e : nat) : pset := mk_pset (pq s ++ [(w, e)]) (seen s).
  (** top(), 118-120; None: empty queue. *)
  Definition ps_top (s : pset) : option (W * nat) := nth_error (pq s) (top (pq s)).
  (** The loop 114-116; every round removes an element. *)
  Fixpoint ps_skip (fuel : nat) (q : list (W * nat)) (sn : list nat) : option (list (W * nat)) :=
    match q with
    | [] => Some q
    | _ =>
        match fuel with
        | 0 => Some q
        | S fuel' => x <- nth_error q (top q) ;;
                     if memb (snd x) sn then ps_skip fuel' (remove_at (top q) q) sn else Some q
        end
    end.
  (** pop, 110-117. None: empty queue, or the assertion of line 111 fails. *)
  Definition ps_pop (s : pset) : option pset :=
    x <- ps_top s ;;
    if memb (snd x) (seen s) then None
    else let sn := snd x :: seen s in
         let q := remove_at (top (pq s)) (pq s) in
         q' <- ps_skip (length q) q sn ;;
         Some (mk_pset q' sn).
  Definition ps_empty (s : pset) : bool := match pq s with [] => true | _ => false end.

  Inductive ps_call := PEmplace (w : W) (e : nat) | PPop.
  (** A sequence of calls; the second component lists the elements handed out by top() before each pop(). *)
  Definition ps_do (st : pset * list (W * nat)) (c : ps_call) : option (pset * list (W * nat)) :=
    match c with
    | PEmplace w e => Some (ps_emplace (fst st) w e, snd st)
    | PPop => x <- ps_top (fst st) ;; s' <- ps_pop (fst st) ;; Some (s', snd st ++ [x])
    end.
  Definition ps_run (cs : list ps_call) : option (pset * list (W * nat)) := ofold ps_do cs (mk_pset [] [], []).
End PrioritySet.
Arguments mk_pset {W}. Arguments pq {W}. Arguments seen {W}. Arguments ps_emplace {W}. Arguments ps_top {W}.
Arguments ps_skip {W}. Arguments ps_pop {W}. Arguments ps_empty {W}. Arguments PEmplace {W}. Arguments PPop {W}.
Arguments ps_do {W}. Arguments ps_run {W}.

(** *** fixed_point_workset, utils/workset.h 36-91. [sw bottom s e] is the derived class's step_with<bottom>: new state,
    elements it emplaces, and its result. Elements are numbers. The event list records insertions and hand-outs in
    reverse order of time; it is not part of the code. *)
Inductive wev := EIns (e : nat) | EOut (e : nat).
Section Workset.
  Variables (S : Type) (enforce_set : bool) (sw : bool -> S -> nat -> S * list nat * bool).
  Record wset := mk_wset { ws_done : bool; ws_limit : nat; ws_rounds : nat; ws_work : list nat; ws_next : list nat;
                           ws_s : S; ws_log : list wev }.
  (** std::sort followed by std::unique and erase, 55-56. *)
  Definition sort_unique (l : list nat) : list nat := fold_right PdaModel.vs_emplace [] l.
  (** The part of step after the work list has been refilled, 61-68; _workset.back() is the last element. *)
  Definition ws_take (bottom : bool) (w : wset) : option wset :=
    match rev (ws_work w) with
    | [] => None
    | e :: rest =>
        let '(s', ins, ok) := sw bottom (ws_s w) e in
        Some (mk_wset (negb ok || ws_done w) (ws_limit w) (ws_rounds w) (rev rest) (ws_next w ++ ins) s'
                      (rev (map EIns ins) ++ EOut e :: ws_log w))
    end.
  (** step, 46-69. *)
  Definition ws_step (bottom : bool) (w : wset) : option wset :=
    match ws_work w with
    | _ :: _ => ws_take bottom w
    | [] =>
        match ws_next w with
        | [] => Some (mk_wset true (ws_limit w) (Datatypes.S (ws_rounds w)) [] [] (ws_s w) (ws_log w))
        | _ => ws_take bottom (mk_wset (ws_done w) (ws_limit w) (Datatypes.S (ws_rounds w))
                                 (if enforce_set then sort_unique (ws_next w) else ws_next w) [] (ws_s w) (ws_log w))
        end
    end.
  (** done, 76-78. *)
  Definition ws_stop (w : wset) : bool := ws_done w || Nat.eqb (ws_rounds w) (ws_limit w).
  (** "while (!done()) step<bottom>();", 72-74 and 80-82. Some None: out of fuel. *)
  Fixpoint ws_loop (bottom : bool) (fuel : nat) (w : wset) : option (option wset) :=
    if ws_stop w then Some (Some w)
    else match fuel with
         | 0 => Some None
         | Datatypes.S fuel' => w' <- ws_step bottom w ;; ws_loop bottom fuel' w'
         end.
  (** finalize, 70-75. *)
  Definition ws_finalize (fuel : nat) (w : wset) : option (option wset) :=
    ws_loop true fuel (mk_wset (ws_done w) (ws_limit w) 0 (ws_work w) (ws_next w) (ws_s w) (ws_log w)).
  (** run, 79-84. *)
  Definition ws_run (fuel : nat) (w : wset) : option (option wset) :=
    r <- ws_loop false fuel w ;;
    match r with None => Some None | Some w' => ws_finalize fuel w' end.
  (** The state after the constructor of the derived class emplaced [ins] (44, 86-89). *)
  Definition ws_init (limit : nat) (s : S) (ins : list nat) : wset := mk_wset false limit 0 [] ins s (rev (map EIns ins)).
End Workset.
Arguments mk_wset {S}. Arguments ws_done {S}. Arguments ws_limit {S}. Arguments ws_rounds {S}. Arguments ws_work {S}.
Arguments ws_next {S}. Arguments ws_s {S}. Arguments ws_log {S}. Arguments ws_take {S}. Arguments ws_step {S}.
Arguments ws_stop {S}. Arguments ws_loop {S}. Arguments ws_finalize {S}. Arguments ws_run {S}. Arguments ws_init {S}.
