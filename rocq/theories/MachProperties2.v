(** C209: the evaluator with its C stack computes what the natural semantics of
    MachNat says. *)
From Coq Require Import String List ZArith Bool Lia.
From Verif Require Import MachModel MachSpec MachProofs MachProofs2 MachNat MachNatProofs MachNatSim MachNatOk MachNatComplete.
Import ListNotations.
Local Open Scope string_scope.
Local Open Scope list_scope.
Local Open Scope nat_scope.

Lemma run_steps s s' : steps s s' -> exists n, run n s = Next s'.
Proof. induction 1 as [s|s s1 s2 E R (n & IH)]; [exists 0; reflexivity|]. exists (S n). cbn [run]. rewrite E. exact IH. Qed.
Lemma run_more a b s s' : run a s = Next s' -> run (a + b) s = run b s'.
Proof. revert s. induction a as [|a IH]; intros s H; [inversion H; reflexivity|]. cbn [run Nat.add] in *. destruct (step s); try discriminate H. auto. Qed.
Lemma run_stop a s o : run a s = o -> (forall s', o <> Next s') -> forall b, (exists s', run b s = Next s') \/ run b s = o.
Proof.
  revert s. induction a as [|a IH]; intros s H N b; [destruct (N s); auto|]. destruct b as [|b]; [left; exists s; reflexivity|]. cbn [run] in *.
  destruct (step s) as [s1| | | |]; auto. 
Qed.
Lemma first_agree : agree (mkStore [] [] [mkE genv None] []) first_memory.
Proof.
  split; [reflexivity|]. split; [constructor; [|constructor]; split; [|reflexivity]; intro x; unfold genv, first_memory; cbn [e_binds fst snd assq];
    repeat (match goal with |- context [String.eqb ?z ?y] => destruct (String.eqb z y) end; [reflexivity|]); reflexivity|].
  intros [|i] f u H; cbn in H; [inversion H|destruct i; discriminate H].
Qed.
Definition stops_at (prog : list expr) (o : outc) : Prop :=
  (exists n, run n (start prog) = o) /\ forall n, (exists s, run n (start prog) = Next s) \/ run n (start prog) = o.
Lemma stop_at n prog o : run n (start prog) = o -> (forall s', o <> Next s') -> stops_at prog o.
Proof. intros H N. split; [eauto|]. intro b. eapply run_stop; eauto. Qed.

Lemma no_catches k n : ctx [] k n [].
Proof. constructor. Qed.
(** A program with a value ends with that value, and the memory is the one of
    the semantics; there is no undefined behaviour or failed assert on the way. *)
Theorem c209_value : forall prog v m, ev [] first_memory (TBody 0 prog) (RVal v) m ->
  exists s, stops_at prog (Final v s) /\ agree (m_sto s) m.
Proof.
  intros prog v m E. destruct (sim_all _ _ _ _ _ E _ _ _ _ [] [] [] [] [] 0 false (ci_body _ 0 prog) first_agree (no_catches _ _)) as (h & w & g & n & cr & S & A & _).
  destruct (run_steps _ _ S) as (a & R). exists (mkM (CRet v) [] h [] [] 0 w g n cr). split; [|exact A].
  apply stop_at with (a + 1); [|discriminate]. unfold start. rewrite (run_more _ 1 _ _ R). reflexivity.
Qed.
(** A program that throws outside any catch is stopped with the key of the throw. *)
Theorem c209_throw : forall prog key args m, ev [] first_memory (TBody 0 prog) (RStop (Thrown key args)) m ->
  exists s, stops_at prog (Uncaught key s) /\ agree (m_sto s) m /\ m_ctrl s = CThrow key args.
Proof.
  intros prog key args m E. destruct (sim_all _ _ _ _ _ E _ _ _ _ [] [] [] [] [] 0 false (ci_body _ 0 prog) first_agree (no_catches _ _)) as (ex & h & w & g & n & cr & S & A & _).
  destruct (run_steps _ _ S) as (a & R). exists (mkM (CThrow key args) (ex ++ []) h [] [] 0 w g n cr). split; [|split; [exact A|reflexivity]].
  apply stop_at with (a + 1); [|discriminate]. unfold start. rewrite (run_more _ 1 _ _ R). reflexivity.
Qed.
(** A throw that no active catch takes stops the program where it is thrown: its
    catches do not run, and the expressions after it are not evaluated. *)
Theorem c209_exit : forall prog key m, ev [] first_memory (TBody 0 prog) (RStop (Exit key)) m ->
  exists s, stops_at prog (Uncaught key s) /\ agree (m_sto s) m.
Proof.
  intros prog key m E. destruct (sim_all _ _ _ _ _ E _ _ _ _ [] [] [] [] [] 0 false (ci_body _ 0 prog) first_agree (no_catches _ _)) as (s' & S & U & A & _).
  destruct (run_steps _ _ S) as (a & R). exists s'. split; [|exact A].
  apply stop_at with (a + 1); [|discriminate]. unfold start. rewrite (run_more _ 1 _ _ R). cbn [run]. rewrite U. reflexivity.
Qed.
(** Conversely, a program that ends, captures no continuation and throws only what
    its innermost catch or no catch takes has a value or a throw in the semantics,
    with the memory it ends with. *)
Theorem c209_converse : forall prog n o, run n (start prog) = o -> (forall s, steps (start prog) s -> m_conts s = [] /\ covered s) ->
  match o with
  | Next _ => True
  | Final v s => exists m, ev [] first_memory (TBody 0 prog) (RVal v) m /\ agree (m_sto s) m
  | Uncaught key s => exists q m, ev [] first_memory (TBody 0 prog) (RStop q) m /\ agree (m_sto s) m /\ (q = Exit key \/ exists args, q = Thrown key args)
  | Undef | Assert => ~ exists o' m, ev [] first_memory (TBody 0 prog) o' m
  end.
Proof.
  intros prog n o R G.
  assert (C : forall s, ends n (start prog) s -> exists o' m, ev [] first_memory (TBody 0 prog) o' m).
  { intros s E. assert (L : live n (start prog)) by (split; [eauto|]; intros s' S; destruct (G s' S) as (A & B); split; [exact B|exact A]).
    eapply (complete n _ _ _ _ _ None None); [exact L|constructor|exact first_agree|apply no_catches| |cbn; lia].
    split; [cbn; lia|]. split; [constructor|]. constructor; [|constructor]. intros x v. unfold first_memory. cbn [fst].
    repeat (match goal with |- context [String.eqb ?z ?y] => destruct (String.eqb z y) end; [intros [= <-]; exact Logic.I|]). discriminate. }
  destruct o as [s|v s|key s| |].
  - exact Logic.I.
  - destruct (C s) as (o' & m & E); [left; eauto|]. destruct o' as [v'|[key' args'|key']].
    + destruct (c209_value _ _ _ E) as (s' & (_ & Q) & A). destruct (Q n) as [(s2 & X) | X]; rewrite R in X; inversion X; subst. eauto.
    + destruct (c209_throw _ _ _ _ E) as (s' & (_ & Q) & A). destruct (Q n) as [(s2 & X) | X]; rewrite R in X; inversion X.
    + destruct (c209_exit _ _ _ E) as (s' & (_ & Q) & A). destruct (Q n) as [(s2 & X) | X]; rewrite R in X; inversion X.
  - destruct (C s) as (o' & m & E); [right; eauto|]. destruct o' as [v'|[key' args'|key']].
    + destruct (c209_value _ _ _ E) as (s' & (_ & Q) & A). destruct (Q n) as [(s2 & X) | X]; rewrite R in X; inversion X; subst.
    + destruct (c209_throw _ _ _ _ E) as (s' & (_ & Q) & A & _). destruct (Q n) as [(s2 & X) | X]; rewrite R in X; inversion X; subst. eexists. eexists. split; [exact E|]. split; [exact A|eauto].
    + destruct (c209_exit _ _ _ E) as (s' & (_ & Q) & A). destruct (Q n) as [(s2 & X) | X]; rewrite R in X; inversion X; subst. eexists. eexists. split; [exact E|]. split; [exact A|auto].
  - intros (o' & m & E). destruct o' as [v'|[key' args'|key']];
      [destruct (c209_value _ _ _ E) as (s' & (_ & Q) & _)|destruct (c209_throw _ _ _ _ E) as (s' & (_ & Q) & _)|destruct (c209_exit _ _ _ E) as (s' & (_ & Q) & _)];
      destruct (Q n) as [(s2 & X) | X]; rewrite R in X; inversion X.
  - intros (o' & m & E). destruct o' as [v'|[key' args'|key']];
      [destruct (c209_value _ _ _ E) as (s' & (_ & Q) & _)|destruct (c209_throw _ _ _ _ E) as (s' & (_ & Q) & _)|destruct (c209_exit _ _ _ E) as (s' & (_ & Q) & _)];
      destruct (Q n) as [(s2 & X) | X]; rewrite R in X; inversion X.
Qed.
(** An expression inside any C stack (any continuations captured, any active
    catches): its value is returned to the function that asked for it, with the
    catches that were active. *)
Theorem c209_expression : forall s e x m v m' d, m_ctrl s = CEval e x -> m_under s = 0 -> agree (m_sto s) m -> active s d -> ev d m (TEval e x) (RVal v) m' ->
  exists s', steps s s' /\ m_ctrl s' = CRet v /\ m_stack s' = m_stack s /\ agree (m_sto s') m' /\ m_catch s' = m_catch s /\ m_under s' = 0 /\ m_conts s' = m_conts s.
Proof.
  intros s e x m v m' d C U A T E. destruct s as [c k h cts cs u w g n cr]. unfold active in T. cbn in C, U, A, T. subst c u.
  destruct (sim_all _ _ _ _ _ E _ _ _ _ k cts cs w g n cr (ci_eval _ e x) A T) as (h' & w' & g' & n' & cr' & S & A' & _).
  eexists. split; [exact S|]. cbn. auto 8.
Qed.
(** A throw inside an expression that its catches do not take: the search for a
    catch sees the same frames as the function that asked for the value. *)
Theorem c209_expression_throw : forall s e x m key args m' d, m_ctrl s = CEval e x -> m_under s = 0 -> agree (m_sto s) m -> active s d -> ev d m (TEval e x) (RStop (Thrown key args)) m' ->
  exists s', steps s s' /\ m_ctrl s' = CThrow key args /\ agree (m_sto s') m' /\ m_catch s' = m_catch s /\
    find_catch (m_catch s') (m_stack s') key = find_catch (m_catch s) (m_stack s) key.
Proof.
  intros s e x m key args m' d C U A T E. destruct s as [c k h cts cs u w g n cr]. unfold active in T. cbn in C, U, A, T. subst c u.
  destruct (sim_all _ _ _ _ _ E _ _ _ _ k cts cs w g n cr (ci_eval _ e x) A T) as (ex & h' & w' & g' & n' & cr' & S & A' & _ & _ & _ & W).
  eexists. split; [exact S|]. cbn. split; [reflexivity|]. split; [exact A'|]. split; [reflexivity|]. clear -T W.
  induction T as [|id t r d (L & _) T IH]; [reflexivity|]. cbn [find_catch]. rewrite W by exact L. destruct (unwind_to id k) as [[[[t' h] w0] k']|]; [|reflexivity].
  rewrite IH. reflexivity.
Qed.
(** A throw inside an expression that neither its catches nor those around it take
    ends the process. *)
Theorem c209_expression_exit : forall s e x m key m' d, m_ctrl s = CEval e x -> m_under s = 0 -> agree (m_sto s) m -> active s d -> ev d m (TEval e x) (RStop (Exit key)) m' ->
  exists s', steps s s' /\ step s' = Uncaught key s' /\ agree (m_sto s') m'.
Proof.
  intros s e x m key m' d C U A T E. destruct s as [c k h cts cs u w g n cr]. unfold active in T. cbn in C, U, A, T. subst c u.
  destruct (sim_all _ _ _ _ _ E _ _ _ _ k cts cs w g n cr (ci_eval _ e x) A T) as (s' & S & X & A' & _). eauto.
Qed.
(** The semantics gives a program at most one outcome. *)
Definition same_outcome (o1 o2 : outcome) : Prop :=
  match o1, o2 with
  | RVal v, RVal v' => v = v'
  | RStop (Thrown key args), RStop (Thrown key' args') => key = key' /\ args = args'
  | RStop (Exit key), RStop (Exit key' | Thrown key' _) | RStop (Thrown key _), RStop (Exit key') => key = key'
  | _, _ => False
  end.
Theorem c209_one_outcome : forall prog o1 m1 o2 m2, ev [] first_memory (TBody 0 prog) o1 m1 -> ev [] first_memory (TBody 0 prog) o2 m2 ->
  same_outcome o1 o2 /\ cells m1 = cells m2 /\ length (frames m1) = length (frames m2).
Proof.
  assert (G : forall prog o m, ev [] first_memory (TBody 0 prog) o m -> exists r, stops_at prog r /\
    match o, r with RVal v, Final v' s => v = v' /\ agree (m_sto s) m | RStop (Thrown key args), Uncaught key' s => key = key' /\ m_ctrl s = CThrow key args /\ agree (m_sto s) m
    | RStop (Exit key), Uncaught key' s => key = key' /\ agree (m_sto s) m | _, _ => False end).
  { intros prog o m E. destruct o as [v|[key args|key]].
    - destruct (c209_value _ _ _ E) as (s & S & A). exists (Final v s). auto.
    - destruct (c209_throw _ _ _ _ E) as (s & S & A & B). exists (Uncaught key s). auto.
    - destruct (c209_exit _ _ _ E) as (s & S & A). exists (Uncaught key s). auto. }
  assert (SM : forall h m1 m2, agree h m1 -> agree h m2 -> cells m1 = cells m2 /\ length (frames m1) = length (frames m2)).
  { intros h m1 m2 A B. pose proof (env_len _ _ A). pose proof (env_len _ _ B). destruct A as (A & _), B as (B & _). split; congruence. }
  intros prog o1 m1 o2 m2 E1 E2. destruct (G _ _ _ E1) as (r1 & ((n & R) & _) & X1). destruct (G _ _ _ E2) as (r2 & (_ & Q) & X2).
  assert (r1 = r2). { destruct (Q n) as [(s2 & X) | X]; [|congruence]. rewrite R in X. rewrite X in X1. destruct o1 as [v|[key args|key]]; cbn in X1; destruct X1. }
  subst r2. clear R Q. destruct o1 as [v|[key args|key]], o2 as [v'|[key' args'|key']], r1; cbn [same_outcome]; try (now destruct X1); try (now destruct X2);
    repeat match goal with H : _ /\ _ |- _ => destruct H end; (split; [try split; congruence|eapply SM; eassumption]).
Qed.

(** ** programs with an outcome *)
Ltac here := eapply ba_here; [reflexivity|reflexivity].
Ltac var := eapply ev_var; first [here | eapply ba_outer; [reflexivity|reflexivity|here] | eapply ba_outer; [reflexivity|reflexivity|eapply ba_outer; [reflexivity|reflexivity|here]]].
Ltac val := first [apply ev_atom | var | apply ev_lam].
Ltac ops := repeat first [eapply ev_operand; [val|] | eapply ev_operands_done].
Ltac pcall := eapply ev_call; [val|eapply ev_call_prim; ops; eapply ev_prim; reflexivity].
(* (define f (lambda (x . r) (cons x r))) (f 1 2 3) *)
Definition rest_prog : list expr := [EDef "f" (ELam ["x"] (Some "r") [ECall (EVar "cons") [EVar "x"; EVar "r"]]); ECall (EVar "f") [EAtom (AInt 1); EAtom (AInt 2); EAtom (AInt 3)]].
Example rest_value : exists m, ev [] first_memory (TBody 0 rest_prog) (RVal (MList 2)) m /\ cells m = [mkCell (MA (AInt 2)) (Some 1) false; mkCell (MA (AInt 3)) None false; mkCell (MA (AInt 1)) (Some 0) false].
Proof.
  eexists. split.
  - eapply ev_seq; [eapply ev_def; val|]. apply ev_last. eapply ev_call; [val|]. eapply ev_call_proc; [cbn; lia|left; discriminate|].
    eapply ev_param_rest; [val|]. eapply ev_rest; [val|reflexivity|]. eapply ev_rest; [val|reflexivity|]. apply ev_rest_done. apply ev_last. pcall.
  - reflexivity.
Qed.
(* (catch #t (lambda () (dynamic-wind (lambda () 0) (lambda () (throw 'a 7)) (lambda () (set! n 1)))) (lambda (key v) v)): the last guard is not run *)
Definition wind_prog : list expr :=
  [EDef "n" (EAtom (AInt 0));
   ECall (EVar "catch") [EAtom (ABool true);
     ELam [] None [EWind (ELam [] None [EAtom (AInt 0)]) (ELam [] None [ECall (EVar "throw") [EAtom (ASym "a"); EAtom (AInt 7)]]) (ELam [] None [ESet "n" (EAtom (AInt 1))])];
     ELam ["key"; "v"] None [EVar "v"]];
   EVar "n"].
Example wind_value : exists m, ev [] first_memory (TBody 0 wind_prog) (RVal (MA (AInt 0))) m.
Proof.
  eexists. eapply ev_seq; [eapply ev_def; val|]. eapply ev_seq.
  - eapply ev_call; [val|]. eapply ev_call_prim. ops. eapply ev_catch_throw; [cbn; lia|now left|exact Logic.I|exact Logic.I| |now left|].
    + eapply ev_call_proc; [cbn; lia|now right|]. apply ev_params_done. apply ev_last. eapply ev_wind_thunk; [val|val|val|exact Logic.I|exact Logic.I|exact Logic.I| |].
      * eapply ev_call_proc; [cbn; lia|now right|]. apply ev_params_done. apply ev_last. val.
      * eapply ev_call_proc; [cbn; lia|now right|]. apply ev_params_done. apply ev_last. eapply ev_call; [val|]. eapply ev_call_prim. ops. apply ev_throw.
    + eapply ev_handler; [cbn; lia|apply b_next; apply b_next; apply b_done|]. apply ev_last. val.
  - apply ev_last. val.
Qed.
(* (map (lambda (x) (+ x n)) (list 1 2)) *)
Definition map_prog : list expr :=
  [EDef "n" (EAtom (AInt 10)); EMap (ELam ["x"] None [ECall (EVar "+") [EVar "x"; EVar "n"]]) (ECall (EVar "list") [EAtom (AInt 1); EAtom (AInt 2)])].
Example map_value : exists m, ev [] first_memory (TBody 0 map_prog) (RVal (MList 2)) m /\ nth_error (cells m) 2 = Some (mkCell (MA (AInt 11)) (Some 3) false) /\ nth_error (cells m) 3 = Some (mkCell (MA (AInt 12)) None false).
Proof.
  eexists. split.
  - eapply ev_seq; [eapply ev_def; val|]. apply ev_last. eapply ev_map_list; [val|exact Logic.I|pcall|].
    eapply ev_map_more; [reflexivity|eapply ev_call1; [cbn; lia|apply b_next; apply b_done|apply ev_last; pcall]|reflexivity|].
    eapply ev_map_more; [reflexivity|eapply ev_call1; [cbn; lia|apply b_next; apply b_done|apply ev_last; pcall]|reflexivity|]. apply ev_map_done.
  - split; reflexivity.
Qed.
(* (for-each car (list 1)): the error of car *)
Definition each_prog : list expr := [EEach (EVar "car") (ECall (EVar "list") [EAtom (AInt 1)])].
Example each_throw : exists m, ev [] first_memory (TBody 0 each_prog) wrong m.
Proof.
  eexists. apply ev_last. eapply ev_each_list; [val|exact Logic.I|pcall|]. eapply ev_each_throw; [reflexivity|discriminate|].
  eapply ev_call1_prim. eapply ev_prim_wrong; [discriminate|discriminate|reflexivity].
Qed.
(* the machine agrees *)
Example c209_ex : exists s, stops_at rest_prog (Final (MList 2) s).
Proof. destruct rest_value as (m & E & _). destruct (c209_value _ _ _ E) as (s & S & _). eauto. Qed.

(* (catch 'a (lambda () (catch 'b (lambda () (throw 'c)) (lambda (k) 0))) (lambda (k) 1)): neither tag is c, so the process ends *)
Definition exit_prog : list expr :=
  [ECall (EVar "catch") [EAtom (ASym "a"); ELam [] None [ECall (EVar "catch") [EAtom (ASym "b"); ELam [] None [ECall (EVar "throw") [EAtom (ASym "c")]]; ELam ["k"] None [EAtom (AInt 0)]]];
     ELam ["k"] None [EAtom (AInt 1)]]].
Example exit_outcome : exists m, ev [] first_memory (TBody 0 exit_prog) (RStop (Exit "c")) m.
Proof.
  eexists. apply ev_last. eapply ev_call; [val|]. eapply ev_call_prim. ops. eapply ev_catch_exit; [cbn; lia|right; eexists; reflexivity|exact Logic.I|exact Logic.I|].
  eapply ev_call_proc; [cbn; lia|now right|]. apply ev_params_done. apply ev_last. eapply ev_call; [val|]. eapply ev_call_prim. ops.
  eapply ev_catch_none; [cbn; lia|right; eexists; reflexivity|exact Logic.I|exact Logic.I| |].
  - eapply ev_call_proc; [cbn; lia|now right|]. apply ev_params_done. apply ev_last. eapply ev_call; [val|]. eapply ev_call_prim. ops. apply ev_throw.
  - intros t' [<- | [<- | []]] [Q | Q]; discriminate Q.
Qed.
(* a program that the converse is about: its throw is taken by its innermost catch *)
Definition calm (s : mst) : bool :=
  match m_conts s with [] => true | _ => false end &&
  match m_ctrl s, tags (m_stack s) with CThrow key _, t :: r => tag_match t key | _, _ => true end.
Lemma calm_run n : forall s, (fix f n s := calm s && match n, step s with S n, Next s' => f n s' | _, Next _ => false | _, _ => true end) n s = true ->
  forall s', steps s s' -> m_conts s' = [] /\ covered s'.
Proof.
  assert (B : forall s, calm s = true -> m_conts s = [] /\ covered s).
  { intros s H. unfold calm in H. apply andb_prop in H. destruct H as (H1 & H2). split; [destruct (m_conts s); [reflexivity|discriminate H1]|].
    unfold covered. destruct (m_ctrl s); auto. destruct (tags (m_stack s)) as [|t r]; auto. left. apply catches_match; auto. }
  induction n as [|n IH]; intros s H s' S; apply andb_prop in H; destruct H as (H1 & H2).
  - inversion S as [|? s1 ? X]; subst; [apply B; exact H1|]. rewrite X in H2. discriminate H2.
  - inversion S as [|? s1 ? X S2]; subst; [apply B; exact H1|]. rewrite X in H2. eapply IH; eassumption.
Qed.
Example converse_ex : (exists s, run 100 (start wind_prog) = Final (MA (AInt 0)) s) /\ forall s, steps (start wind_prog) s -> m_conts s = [] /\ covered s.
Proof. split; [eexists; vm_compute; reflexivity|]. apply (calm_run 100). vm_compute. reflexivity. Qed.
(* inside a catch: the states that c209_expression is about *)
Definition in_catch : list expr := [ECall (EVar "catch") [EAtom (ASym "a"); ELam [] None [ECall (EVar "+") [EAtom (AInt 1); EAtom (AInt 2)]]; ELam ["k"] None [EAtom (AInt 0)]]].
Example active_ex : exists s, run 19 (start in_catch) = Next s /\ m_ctrl s = CEval 1 (ECall (EVar "+") [EAtom (AInt 1); EAtom (AInt 2)]) /\ m_under s = 0 /\ active s [MA (ASym "a")] /\ exists m, agree (m_sto s) m.
Proof.
  eexists. split; [vm_compute; reflexivity|]. split; [reflexivity|]. split; [reflexivity|]. split.
  - constructor; [|constructor]. split; [cbn; lia|]. eexists. eexists. eexists. split; [reflexivity|]. cbn [m_stack In]. auto.
  - exists (mkMem [] (frames first_memory ++ [(no_vars, Some 0)])). destruct first_agree as (A & B & C). split; [reflexivity|]. split.
    + cbn [m_sto h_envs]. apply Forall2_app with (l1 := [mkE genv None]) (l2 := [mkE [] (Some 0)]); [exact B|]. constructor; [|constructor]. split; [|reflexivity]. reflexivity.
    + intros [|[|i]] f u H; cbn in H; inversion H; subst; [lia|destruct i; discriminate].
Qed.
