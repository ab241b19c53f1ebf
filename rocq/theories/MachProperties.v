(** Re-entrant continuations: C46 (again), C85, C86, C87. *)
From Coq Require Import String List ZArith Bool Lia.
From Verif Require Import MachModel MachSpec MachProofs MachProofs2 MachProofs3 MachProofs5 MachProofs6 MachProofs7 MachProofs8 MachProofs9.
Import ListNotations.
Local Open Scope string_scope.
Local Open Scope list_scope.
Local Open Scope nat_scope.

(** ** C46: wind chains, for continuations that are re-entered *)
(* after any execution whatsoever in which no throw was caught under another wind
   chain: when a continuation is about to be resumed, the chain is the one that was
   current when it was captured *)
Theorem c46_reentry_uncrossed : forall s f k s1 s2 v, reachable s -> at_capture s f k -> step s = Next s1 -> steps s1 s2 ->
  arriving s2 (length (m_conts s)) v -> m_crossed s2 = false -> m_wind s2 = m_wind s.
Proof.
  intros s f k s1 s2 v (prog & R) (C & e & K) E S2 A N.
  assert (X : nth_error (m_conts s1) (length (m_conts s)) = Some (k, m_wind s)).
  { unfold step in E. rewrite C, K in E. injection E as <-. cbn. rewrite nth_error_app2, Nat.sub_diag; auto. }
  apply (conts_stay _ _ _ _ S2) in X.
  assert (R2 : reachable s2) by (exists prog; eapply steps_trans; [exact R|]; eapply steps_more; eauto).
  destruct (wind_reach s2 R2 N) as (_ & W & _). unfold arriving in A. rewrite A in W. cbn in W. destruct W as (k' & W). congruence.
Qed.
(* in particular after any execution without throws and errors *)
Theorem c46_reentry_no_throw : forall prog s f k s1 s2 v, steps (start prog) s -> at_capture s f k -> step s = Next s1 -> steps s1 s2 ->
  arriving s2 (length (m_conts s)) v ->
  steps_all (fun s => forall key args, m_ctrl s <> CThrow key args) (start prog) s2 -> m_wind s2 = m_wind s.
Proof.
  intros prog s f k s1 s2 v R C E S2 A NT. eapply c46_reentry_uncrossed; eauto; [exists prog; auto|].
  assert (Z : m_crossed (start prog) = false) by reflexivity. revert Z. clear - NT. revert NT. generalize (start prog). intros s0 H.
  induction H as [|s s1 s2 N E _ IH]; auto. intro Z. apply IH. clear IH. destruct s as [c k h cs ca u w g nx cr]. cbn in Z, N. subst cr.
  step_cases s E; cbn; auto; exfalso; eapply N; reflexivity.
Qed.
(* after any execution whatsoever, throws out of dynamic-winds included, in which
   every in guard that a jump called ended under the wind chain its dynamic-wind was
   called under *)
Theorem c46_reentry : forall prog s f k s1 s2 v, steps (start prog) s -> at_capture s f k -> step s = Next s1 -> steps s1 s2 ->
  arriving s2 (length (m_conts s)) v -> steps_all in_guard_neutral (start prog) s2 -> m_wind s2 = m_wind s.
Proof.
  intros prog s f k s1 s2 v R (C & e & K) E S2 A NT.
  assert (X : nth_error (m_conts s1) (length (m_conts s)) = Some (k, m_wind s)).
  { unfold step in E. rewrite C, K in E. injection E as <-. cbn. rewrite nth_error_app2, Nat.sub_diag; auto. }
  apply (conts_stay _ _ _ _ S2) in X.
  assert (W : wi s2).
  { clear - NT. pose proof (wi_start prog) as W0. revert W0 NT. generalize (start prog). intros s0 W0 H.
    induction H as [|s s1 s2 N E _ IH]; auto. apply IH. eapply wi_step; eauto. }
  destruct W as (_ & W & _). unfold arriving in A. rewrite A in W. cbn in W. destruct W as (k' & W). congruence.
Qed.
(* the example: a body of dynamic-wind re-entered after it was left *)
Definition wind_prog : list expr :=
  [EDef "k" F; EDef "n" (I 0);
   EWind (lam [] [ESet "n" (call "+" [V "n"; I 1])]) (lam [] [cap "k" (I 0)]) (lam [] [ESet "n" (call "+" [V "n"; I 10])]);
   EIf (call "<" [V "n"; I 12]) (call "k" [I 0]) None; V "n"].
Example wind_prog_ends : ends wind_prog = Value (int 22). Proof. vm_compute. reflexivity. Qed.
(* the chain of the extent re-entered is not empty, so the theorem says something *)
Definition arrives_in (s : mst) : bool := match m_ctrl s with CJump _ _ => match m_wind s with [] => false | _ => true end | _ => false end.
Fixpoint first (b : mst -> bool) (n : nat) (s : mst) : option mst :=
  if b s then Some s else match n with O => None | S n => match step s with Next s' => first b n s' | _ => None end end.
Example wind_prog_arrives : option_map m_wind (first arrives_in 500 (start wind_prog)) = Some [0]. Proof. vm_compute. reflexivity. Qed.

(** ** C85: resuming *)
(* the receiver of call/cc is called with a continuation that holds the rest of the computation *)
Theorem c85_capture : forall s f k s', at_capture s f k -> step s = Next s' ->
  m_ctrl s' = CApp1 f (MCont (length (m_conts s))) /\ m_stack s' = k /\ nth_error (m_conts s') (length (m_conts s)) = Some (k, m_wind s) /\ m_sto s' = m_sto s.
Proof.
  intros s f k s' (C & e & K) E. unfold step in E. rewrite C, K in E. injection E as <-. cbn. rewrite nth_error_app2, Nat.sub_diag; auto.
Qed.
(* whatever happened since the capture -- the call/cc call returned, the continuation
   was invoked any number of times, other ones were, errors were thrown -- invoking
   the continuation makes that call return again, with the value it is given, to
   the whole rest of the computation, in the memory as it is now *)
Theorem c85_returns_again : forall s f k s1 s2 v, at_capture s f k -> step s = Next s1 -> steps s1 s2 -> arriving s2 (length (m_conts s)) v ->
  exists s3, step s2 = Next s3 /\ returns_from_callcc s2 k v s3.
Proof.
  intros s f k s1 s2 v C E S2 A. destruct (c85_capture s f k s1 C E) as (_ & _ & X & _). apply (conts_stay _ _ _ _ S2) in X.
  unfold step. unfold arriving in A. rewrite A, X. eexists. split; [reflexivity|]. repeat split.
Qed.
(* when no guard is to be run, an invocation resumes at once *)
Theorem c85_invocation_arrives : forall s f k s1 s2 v, at_capture s f k -> step s = Next s1 -> steps s1 s2 -> invoking s2 (length (m_conts s)) v ->
  m_wind s2 = m_wind s -> exists s3, steps s2 s3 /\ arriving s3 (length (m_conts s)) v /\ m_sto s3 = m_sto s2 /\ m_wind s3 = m_wind s2.
Proof.
  intros s f k s1 s2 v C E S2 A W. destruct (c85_capture s f k s1 C E) as (_ & _ & X & _). apply (conts_stay _ _ _ _ S2) in X.
  set (j := length (m_conts s)) in *. clearbody j. rewrite <- W in X. clear - A X.
  assert (U : forall w, until_common w w = []). { intros [|x w]; auto. cbn. now rewrite Nat.eqb_refl. }
  assert (S1 : exists stk, step s2 = Next (go s2 (CDynOut j v (m_wind s2) []) stk)).
  { destruct A as [(A & k1 & K)|A]; unfold step; rewrite A; [rewrite K|]; cbn [ret_step vals_step]; unfold dynthrow; rewrite X, common_self, U; eexists; reflexivity. }
  destruct S1 as (stk & S1). eexists. split; [|split].
  - eapply steps_more; [exact S1|]. eapply steps_more; [unfold step; cbn; rewrite X, skipn_all; reflexivity|]. eapply steps_more; [reflexivity|]. constructor.
  - reflexivity.
  - split; reflexivity.
Qed.
(* a generator: the continuation of the first call/cc is invoked until the sum is 10 *)
Definition loop_prog : list expr :=
  [EDef "k" F; EDef "n" (I 0); EDef "x" (cap "k" (I 1)); ESet "n" (call "+" [V "n"; V "x"]);
   EIf (call "<" [V "n"; I 10]) (call "k" [call "+" [V "x"; I 1]]) None; V "n"].
Example loop_prog_ends : ends loop_prog = Value (int 10). Proof. vm_compute. reflexivity. Qed.
(* for-each keeps its position in the frame, so re-entering it goes on from there *)
Definition each_prog : list expr :=
  [EDef "k" F; EDef "n" (I 0); EDef "m" (I 0);
   EEach (lam ["x"] [EIf (call "<" [V "x"; I 2]) (ESet "n" (call "+" [V "n"; V "x"])) (Some (EBegin [cap "k" (I 0); ESet "n" (call "+" [V "n"; V "x"])]))])
     (call "list" [I 1; I 5]);
   ESet "m" (call "+" [V "m"; I 1]); EIf (call "<" [V "m"; I 3]) (call "k" [I 0]) None; V "n"].
Example each_prog_ends : ends each_prog = Value (int 16). Proof. vm_compute. reflexivity. Qed.
(* what is in memory is not part of the continuation.  The operands of a call are
   collected in one argument list: (list 1 k1:2 k2:3), then (k1 20), then (k2 30)
   must give (1 2 30), since k2 was captured when the first operands were 1 and 2;
   the result is (1 20 3): 30 is added behind the cell of 2, which is not in the list any more *)
Definition operands_prog (after : list expr) : list expr :=
  [EDef "k1" F; EDef "k2" F; EDef "n" (I 0);
   EDef "r" (call "list" [I 1; cap "k1" (I 2); ECallCC (lam ["c"] [EIf (V "k2") (I 3) (Some (EBegin [ESet "k2" (V "c"); I 3]))])]);
   ESet "n" (call "+" [V "n"; I 1])] ++ after.
Theorem c116_operands_refuted :
  ends (operands_prog [EIf (call "<" [V "n"; I 2]) (call "k2" [I 30]) None; V "r"]) = Value (TCell (int 1) false (Some (TCell (int 2) false (Some (TCell (int 30) false None))))) /\
  ends (operands_prog [EIf (call "<" [V "n"; I 2]) (call "k1" [I 20]) None; EIf (call "<" [V "n"; I 3]) (call "k2" [I 30]) None; V "r"]) <>
    Value (TCell (int 1) false (Some (TCell (int 2) false (Some (TCell (int 30) false None))))).
Proof. split; vm_compute; [reflexivity|discriminate]. Qed.
(* re-entering the procedure that map calls, after map has returned, is a use after free *)
Definition map_prog : list expr :=
  [EDef "k" F; EDef "n" (I 0);
   EMap (lam ["x"] [cap "k" (V "x")]) (call "list" [I 1; I 2; I 3]);
   ESet "n" (call "+" [V "n"; I 1]); EIf (call "<" [V "n"; I 2]) (call "k" [I 7]) None].
Theorem c116_map_refuted : exists s, reachable s /\ step s = Undef.
Proof.
  destruct (go_on anything 118 (start map_prog)) as [s|] eqn:E; [|vm_compute in E; discriminate E].
  exists s. split; [exists map_prog; eapply steps_all_steps, go_on_all; eauto|]. vm_compute in E. injection E as <-. vm_compute. reflexivity.
Qed.

(** ** C86: what has been computed is not altered *)
(* lists: under safe uses of continuations and without set-car! and set-cdr!, a value
   that was computed or is the value of a variable has the same contents for ever *)
Theorem c86_values_kept : forall prog s1 s2 v, steps_all safe_arrival (start prog) s1 -> known s1 v ->
  steps_all (fun s => safe_arrival s /\ ~ mutates s) s1 s2 -> same_value (m_sto s1) (m_sto s2) v.
Proof.
  intros prog s1 s2 v R K S2 n. destruct (inv_prog prog s1 R) as (W & H).
  assert (V : vok W v).
  { destruct K as [K|(e & x & K)]; [pose proof (i_ctrl W s1 H) as C; rewrite K in C; exact C|]. unfold binding in K.
    destruct (nth_error (h_envs (m_sto s1)) e) as [f|] eqn:E; [|discriminate]. exact (s_binds W _ (i_sto W s1 H) e f x v E (assq_in _ _ _ K)). }
  apply (look_kept W); auto; [apply (i_sto W s1 H)|]. now apply cells_run.
Qed.
(* variables: one that is visible keeps its value unless it is assigned or defined *)
Theorem c86_variables_kept : forall prog s1 s2 e x v, steps_all safe_arrival (start prog) s1 -> in_use s1 e -> env_get (m_sto s1) e x = Some v ->
  steps_all (fun s => safe_arrival s /\ ~ assigns s x) s1 s2 -> env_get (m_sto s2) e x = Some v.
Proof.
  intros prog s1 s2 e x v R U G S2. destruct (inv_prog prog s1 R) as (W & H).
  assert (E : eok W e).
  { destruct U as [(y & U)|(ps & r & b & U)]; [pose proof (i_ctrl W s1 H) as C; rewrite U in C; exact C|].
    destruct U as [K|(e1 & y & K)]; [pose proof (i_ctrl W s1 H) as C; rewrite K in C; exact C|]. unfold binding in K.
    destruct (nth_error (h_envs (m_sto s1)) e1) as [f|] eqn:E; [|discriminate]. exact (s_binds W _ (i_sto W s1 H) e1 f y _ E (assq_in _ _ _ K)). }
  pose proof (steps_ups _ _ (steps_all_steps _ _ _ S2)) as Up.
  eapply (get_kept W); eauto; [apply (i_sto W s1 H)|now apply ups_len|]. intros e0 E0. eapply binds_run; eauto.
Qed.
(* escapes are safe: a continuation invoked while its call/cc call is still active *)
Theorem c86_escapes_safe : forall s, (forall j v k w, m_ctrl s = CJump j v -> nth_error (m_conts s) j = Some (k, w) -> suffix k (m_stack s)) -> safe_arrival s.
Proof. intros s H j v k w C N. left. eapply H; eauto. Qed.
(* the examples above, loop_prog and each_prog, only have safe arrivals although they
   re-enter; the closure below is made in an environment and used by both *)
Definition safe_b (s : mst) : bool :=
  match m_ctrl s with
  | CJump j _ => match nth_error (m_conts s) j with Some (k, _) => forallb (fun f => negb (building f)) k | None => true end
  | _ => true
  end.
Lemma safe_b_ok s : safe_b s = true -> safe_arrival s.
Proof.
  intros H j v k w C N. right. unfold safe_b in H. rewrite C, N in H. rewrite forallb_forall in H. intros f Z. specialize (H f Z). now destruct (building f).
Qed.
Definition known_prog : list expr := EDef "l" (call "list" [I 1; I 2]) :: loop_prog ++ [V "l"].
Definition at_l (s : mst) : bool := match m_ctrl s, m_stack s with CRet _, FDef _ y :: _ => String.eqb y "l" | _, _ => false end.
Lemma first_steps b : forall n s s', first b n s = Some s' -> steps s s' /\ b s' = true.
Proof.
  induction n as [|n IH]; cbn; intros s s'; destruct (b s) eqn:B; try (intros [= <-]; split; [constructor|auto]; fail); try discriminate.
  destruct (step s) eqn:E; try discriminate. intro G. destruct (IH _ _ G). split; auto. econstructor; eauto.
Qed.
Fixpoint until (b stop : mst -> bool) (n : nat) (s : mst) : option mst :=
  if stop s then Some s else match n with O => None | S n => if b s then match step s with Next s' => until b stop n s' | _ => None end else None end.
Lemma until_all b stop : forall n s s', until b stop n s = Some s' -> steps_all (fun s => b s = true) s s' /\ stop s' = true.
Proof.
  induction n as [|n IH]; cbn; intros s s'; destruct (stop s) eqn:B; try (intros [= <-]; split; [constructor|auto]; fail); try discriminate.
  destruct (b s) eqn:Z; [|discriminate]. destruct (step s) eqn:E; try discriminate. intro G. destruct (IH _ _ G). split; auto. econstructor; eauto.
Qed.
(* the list l is computed at s1; s2 is the end of the program, after the jumps *)
Example c86_hypotheses_met : exists s1 s2 v, steps_all safe_arrival (start known_prog) s1 /\ known s1 v /\
  steps_all (fun s => safe_arrival s /\ ~ mutates s) s1 s2 /\ look 3 (m_sto s2) v = TCell (int 1) false (Some (TCell (int 2) false None)) /\ step s2 = Final v s2.
Proof.
  destruct (until safe_b at_l 500 (start known_prog)) as [s1|] eqn:E1; [|vm_compute in E1; discriminate E1].
  destruct (until (fun s => safe_b s && no_mutation s) (fun s => match step s with Final _ _ => true | _ => false end) 900 s1) as [s2|] eqn:E2; [|vm_compute in E1; injection E1 as <-; vm_compute in E2; discriminate E2].
  destruct (until_all _ _ _ _ _ E1) as (R1 & _). destruct (until_all _ _ _ _ _ E2) as (R2 & _).
  apply (all_impl _ _ _ _ safe_b_ok) in R1.
  assert (X : forall s, safe_b s && no_mutation s = true -> safe_arrival s /\ ~ mutates s).
  { intros s Z. apply andb_prop in Z. destruct Z. split; [now apply safe_b_ok|now apply no_mutation_ok]. }
  apply (all_impl _ _ _ _ X) in R2. exists s1, s2. vm_compute in E1. injection E1 as <-. vm_compute in E2. injection E2 as <-.
  eexists. split; [exact R1|]. split; [left; reflexivity|]. split; [exact R2|]. split; vm_compute; reflexivity.
Qed.
(* without the restriction both are false.  A rest list that has been bound and
   returned changes when an argument of that call is re-entered *)
Definition rest_prog : list expr :=
  [EDef "k" F; EDef "n" (I 0);
   EDef "r" (ECall (ELam [] (Some "l") [V "l"]) [I 1; cap "k" (I 2)]);
   ESet "n" (call "+" [V "n"; I 1]); EIf (call "<" [V "n"; I 2]) (call "k" [I 7]) None].
Definition at_r (s : mst) : bool := match m_ctrl s, m_stack s with CRet _, FDef _ y :: _ => String.eqb y "r" | _, _ => false end.
Theorem c162_values_refuted : ~ (forall prog s1 s2 v, steps (start prog) s1 -> known s1 v -> steps_all (fun s => ~ mutates s) s1 s2 -> same_value (m_sto s1) (m_sto s2) v).
Proof.
  intro H. destruct (first at_r 500 (start rest_prog)) as [s1|] eqn:E1; [|vm_compute in E1; discriminate E1].
  destruct (go_on no_mutation 60 s1) as [s2|] eqn:E2; [|vm_compute in E1; injection E1 as <-; vm_compute in E2; discriminate E2].
  destruct (first_steps _ _ _ _ E1) as (R & B). unfold at_r in B. destruct (m_ctrl s1) as [|v| | | | | | | | | | | | | |] eqn:C; try discriminate B.
  specialize (H rest_prog s1 s2 v R (or_introl C) (all_impl _ _ _ _ no_mutation_ok (go_on_all _ _ _ _ E2)) 3).
  clear B R. vm_compute in E1. injection E1 as <-. vm_compute in E2. injection E2 as <-. cbn in C. injection C as <-. vm_compute in H. discriminate H.
Qed.
(* a let variable that nothing assigns changes when its initialiser is re-entered *)
Definition let_prog : list expr :=
  [EDef "k" F; EDef "n" (I 0);
   EDef "f" (let1 "x" (cap "k" (I 1)) [lam [] [V "x"]]);
   ESet "n" (call "+" [V "n"; I 1]); EIf (call "<" [V "n"; I 2]) (call "k" [I 2]) None].
Definition at_f (s : mst) : bool := match m_ctrl s, m_stack s with CRet (MProc _ _ _ _), FDef _ y :: _ => String.eqb y "f" | _, _ => false end.
Theorem c162_variables_refuted : ~ (forall prog s1 s2 e x v, steps (start prog) s1 -> in_use s1 e -> env_get (m_sto s1) e x = Some v ->
  steps_all (fun s => ~ assigns s x) s1 s2 -> env_get (m_sto s2) e x = Some v).
Proof.
  intro H. destruct (first at_f 500 (start let_prog)) as [s1|] eqn:E1; [|vm_compute in E1; discriminate E1].
  destruct (go_on (no_assignment "x") 60 s1) as [s2|] eqn:E2; [|vm_compute in E1; injection E1 as <-; vm_compute in E2; discriminate E2].
  destruct (first_steps _ _ _ _ E1) as (R & B). unfold at_f in B. destruct (m_ctrl s1) as [|[|a|ps r b e| |]| | | | | | | | | | | | | |] eqn:C; try discriminate B.
  specialize (H let_prog s1 s2 e "x" (MA (AInt 1)) R (or_intror (ex_intro _ ps (ex_intro _ r (ex_intro _ b (or_introl C)))))).
  assert (X : env_get (m_sto s1) e "x" = Some (MA (AInt 1))). { clear H B R E2. vm_compute in E1. injection E1 as <-. cbn in C. injection C as <- <- <- <-. vm_compute. reflexivity. }
  specialize (H X (all_impl _ _ _ _ (no_assignment_ok "x") (go_on_all _ _ _ _ E2))).
  clear B R X. vm_compute in E1. injection E1 as <-. vm_compute in E2. injection E2 as <-. cbn in C. injection C as <- <- <- <-. vm_compute in H. discriminate H.
Qed.

(** ** C87: catch and re-entry *)
(* while jumps stay inside the same catch bodies and throws are caught by the
   innermost catch, a throw in a catch body calls that catch's handler with the key
   and the arguments, and the catch call is what it returns to *)
Theorem c87_innermost_catch : forall prog s key args p id t h w k,
  steps_all (fun s => stays_in_bodies s /\ innermost_catches s) (start prog) s ->
  m_ctrl s = CThrow key args -> m_stack s = p ++ FCatch id t h true w :: k -> bodies p = [] -> covers t key ->
  exists s', step s = Next s' /\ m_ctrl s' = CVals h (MA (ASym key) :: args) /\ m_stack s' = FCatch id t h false w :: k /\
    m_catch s' = bodies k /\ m_sto s' = m_sto s.
Proof.
  intros prog s key args p id t h w k R C K B T. pose proof (sync_run _ _ R (sync_start prog)) as Y.
  destruct (find_top s key args p id t h w k Y K B (covers_match _ _ T)) as (F & Q & _). unfold step. rewrite C. unfold throw_step. rewrite F.
  eexists. split; [reflexivity|]. cbn. rewrite Q. auto.
Qed.
(* the hypotheses hold for a body that is re-entered from within itself *)
Definition catch_in_prog : list expr :=
  [EDef "k" F; EDef "n" (I 0);
   call "catch" [EAtom (ABool true);
     lam [] [cap "k" (I 1); ESet "n" (call "+" [V "n"; I 1]); EIf (call "<" [V "n"; I 3]) (call "k" [I 1]) (Some (call "throw" [EAtom (ASym "oops"); V "n"]))];
     lam ["key"; "m"] [V "m"]]].
Example catch_in_ends : ends catch_in_prog = Value (int 3). Proof. vm_compute. reflexivity. Qed.
Definition stays_b (s : mst) : bool :=
  match m_ctrl s with
  | CJump j _ => match nth_error (m_conts s) j with Some (k, _) => if list_eq_dec Nat.eq_dec (bodies k) (bodies (m_stack s)) then true else false | None => true end
  | CThrow _ _ => false
  | _ => true
  end.
Lemma stays_b_ok s : stays_b s = true -> stays_in_bodies s /\ innermost_catches s.
Proof.
  intro H. split.
  - intros j v k w C N. unfold stays_b in H. rewrite C, N in H. destruct (list_eq_dec _ _ _); auto. discriminate.
  - intros key args p id t h w k C. unfold stays_b in H. rewrite C in H. discriminate.
Qed.
Definition throwing (s : mst) : bool := match m_ctrl s with CThrow _ _ => true | _ => false end.
Example c87_hypotheses_met : exists s args p id t h w k,
  steps_all (fun s => stays_in_bodies s /\ innermost_catches s) (start catch_in_prog) s /\
  m_ctrl s = CThrow "oops" args /\ m_stack s = p ++ FCatch id t h true w :: k /\ bodies p = [] /\ covers t "oops".
Proof.
  destruct (until stays_b throwing 500 (start catch_in_prog)) as [s|] eqn:E; [|vm_compute in E; discriminate E].
  destruct (until_all _ _ _ _ _ E) as (R & _). apply (all_impl _ _ _ _ stays_b_ok) in R.
  exists s. vm_compute in E. injection E as <-. do 7 eexists. split; [exact R|]. split; [reflexivity|]. split; [|split].
  - first [refine (eq_refl ([_] ++ FCatch _ _ _ true _ :: _))|refine (eq_refl ([_; _] ++ FCatch _ _ _ true _ :: _))|refine (eq_refl ([_; _; _] ++ FCatch _ _ _ true _ :: _))].
  - reflexivity.
  - left; reflexivity.
Qed.
(* a catch body that is re-entered after the catch has returned has no handler: its
   throw, which the catch is for, ends the program *)
Definition catch_prog : list expr :=
  [EDef "k" F; EDef "n" (I 0);
   call "catch" [EAtom (ABool true);
     lam [] [cap "k" (I 1); ESet "n" (call "+" [V "n"; I 1]); EIf (call "<" [V "n"; I 2]) (I 5) (Some (call "throw" [EAtom (ASym "oops")]))];
     ELam ["key"] (Some "r") [I 9]];
   EIf (call "<" [V "n"; I 2]) (call "k" [I 1]) None; V "n"].
Theorem c163_reentered_body_refuted : exists prog s key args p id t h w k, steps (start prog) s /\
  m_ctrl s = CThrow key args /\ m_stack s = p ++ FCatch id t h true w :: k /\ covers t key /\ step s = Uncaught key s.
Proof.
  destruct (until anything throwing 500 (start catch_prog)) as [s|] eqn:E; [|vm_compute in E; discriminate E].
  destruct (until_all _ _ _ _ _ E) as (R & _). apply steps_all_steps in R. exists catch_prog, s. vm_compute in E. injection E as <-.
  do 8 eexists. split; [exact R|]. split; [reflexivity|]. split; [|split].
  - first [refine (eq_refl ([_] ++ FCatch _ _ _ true _ :: _))|refine (eq_refl ([_; _] ++ FCatch _ _ _ true _ :: _))|refine (eq_refl ([_; _; _] ++ FCatch _ _ _ true _ :: _))].
  - left; reflexivity.
  - reflexivity.
Qed.
(* and its normal return pops a catch stack that is empty: the next catch writes
   before the beginning of the array *)
Definition catch_under_prog : list expr :=
  [EDef "k" F; EDef "n" (I 0);
   call "catch" [EAtom (ABool true); lam [] [cap "k" (I 1); I 5]; ELam ["key"] (Some "r") [I 9]];
   ESet "n" (call "+" [V "n"; I 1]);
   EIf (call "<" [V "n"; I 2]) (call "k" [I 1]) None;
   call "catch" [EAtom (ABool true); lam [] [I 6]; ELam ["key"] (Some "r") [I 9]]].
Theorem c163_catch_stack_refuted : exists s tag thunk h r, reachable s /\ m_ctrl s = CFunc PCatch (tag :: thunk :: h :: r) /\ m_under s = 1 /\ step s = Undef.
Proof.
  destruct (until anything (fun s => match m_ctrl s, m_under s with CFunc PCatch _, 1 => true | _, _ => false end) 500 (start catch_under_prog)) as [s|] eqn:E; [|vm_compute in E; discriminate E].
  destruct (until_all _ _ _ _ _ E) as (R & _). apply steps_all_steps in R. exists s. vm_compute in E. injection E as <-.
  do 4 eexists. split; [exists catch_under_prog; exact R|]. split; [reflexivity|]. split; reflexivity.
Qed.

(** ** C46 again: examples, and where it fails *)
(* the same with a throw out of a dynamic-wind, caught outside it, before the jump:
   the stale extent is left by the jump and the chain is right again *)
Definition nothing : expr := lam [] [I 0].
Definition crossed_throw : expr :=
  call "catch" [EAtom (ABool true); lam [] [EWind nothing (lam [] [call "throw" [EAtom (ASym "a"); I 1]]) nothing]; ELam ["key"] (Some "r") [I 9]].
Definition crossed_prog : list expr :=
  [EDef "k" F; EDef "n" (I 0); EWind nothing (lam [] [cap "k" (I 0)]) nothing; ESet "n" (call "+" [V "n"; I 1]); crossed_throw;
   EIf (call "<" [V "n"; I 2]) (call "k" [I 0]) None; V "n"].
Definition neutral_b (s : mst) : bool :=
  match m_ctrl s, m_stack s with
  | CRet _, FDynIn _ _ i _ :: _ =>
      match nth_error (m_guards s) i with Some (_, _, w) => if list_eq_dec Nat.eq_dec (m_wind s) w then true else false | None => true end
  | _, _ => true
  end.
Lemma neutral_ok s : neutral_b s = true -> in_guard_neutral s.
Proof.
  unfold neutral_b, in_guard_neutral. intros H v j u i ins k a b w C K G. rewrite C, K, G in H.
  destruct (list_eq_dec Nat.eq_dec (m_wind s) w); [assumption|discriminate].
Qed.
Definition arrives_b (s : mst) : bool := match m_ctrl s with CJump _ _ => true | _ => false end.
Example c46_crossed_ex : match until neutral_b arrives_b 500 (start crossed_prog) with Some s => m_crossed s && (if list_eq_dec Nat.eq_dec (m_wind s) [0] then true else false) | None => false end = true.
Proof. vm_compute. reflexivity. Qed.
(* but an in guard that catches a throw out of a dynamic-wind leaves the stale
   extent below the one that is entered *)
Definition bad_guard_prog : list expr :=
  [EDef "k" F; EDef "n" (I 0); EWind (lam [] [crossed_throw]) (lam [] [cap "k" (I 0)]) nothing;
   ESet "n" (call "+" [V "n"; I 1]); EIf (call "<" [V "n"; I 2]) (call "k" [I 0]) None; V "n"].
Definition captures_b (s : mst) : bool := match m_ctrl s, m_stack s with CRet _, FCallCC _ :: _ => true | _, _ => false end.
Theorem c148_in_guard_refuted : exists prog s f k s1 s2 v, steps (start prog) s /\ at_capture s f k /\ step s = Next s1 /\ steps s1 s2 /\
  arriving s2 (length (m_conts s)) v /\ m_wind s2 <> m_wind s.
Proof.
  destruct (first captures_b 500 (start bad_guard_prog)) as [s|] eqn:E1; [|vm_compute in E1; discriminate E1].
  destruct (step s) as [s1| | | |] eqn:E2; try (vm_compute in E1; injection E1 as <-; vm_compute in E2; discriminate E2).
  destruct (first arrives_b 500 s1) as [s2|] eqn:E3; [|vm_compute in E1; injection E1 as <-; vm_compute in E2; injection E2 as <-; vm_compute in E3; discriminate E3].
  destruct (first_steps _ _ _ _ E1) as (R1 & B1). destruct (first_steps _ _ _ _ E3) as (R3 & B3).
  destruct (m_ctrl s) as [|f| | | | | | | | | | | | | |] eqn:C1; try (unfold captures_b in B1; rewrite C1 in B1; discriminate B1).
  destruct (m_stack s) as [|[] k] eqn:K1; try (unfold captures_b in B1; rewrite C1, K1 in B1; discriminate B1).
  destruct (m_ctrl s2) as [| | | | | | | | | | | | |j v| |] eqn:C3; try (unfold arrives_b in B3; rewrite C3 in B3; discriminate B3).
  exists bad_guard_prog, s, f, k, s1, s2, v. split; [exact R1|]. split; [split; [exact C1|eauto]|]. split; [exact E2|]. split; [exact R3|].
  clear R1 R3 B1 B3. vm_compute in E1. injection E1 as <-. vm_compute in E2. injection E2 as <-. vm_compute in E3. injection E3 as <-.
  cbn in C3. injection C3 as <- <-. split; [reflexivity|]. vm_compute. discriminate.
Qed.
