(** Proofs about CellModel: calls, and one pass of the evaluator. *)
From Coq Require Import String Lia.
From Verif Require Import Base ParseModel PrintModel EnvModel EvalModel EnvProofs CellModel CellSpec CellProofs CellProofs2 CellProofs3 CellProofs4.
Local Open Scope string_scope.
Local Open Scope list_scope.
From Verif Require Import CellProofs6.
Section Calls.
Variable cprim : list Z -> list cval -> list cell -> option (cval * list cell * list Z).
Variable prim : list Z -> list val -> pres.
Hypothesis PA : prims_agree cprim prim.
Variable ev : env -> bool -> cval -> CM cval.
Variable ev' : env -> val -> EM val.
Hypothesis EV : agrees ev ev'.
Lemma special_ok n e f nx t X s st : same_state X s st -> bounded X (cs_cells s) -> tails X (cs_cells s) nx t ->
  sim rep None X (cs_cells s) (cspecial cprim ev n e f nx s) (special prim ev' n e f t st).
Proof.
  intros S0 Bd T.
  assert (EXP : forall (m : CM cval) x, sim rep None X (cs_cells s) (m s) (exp_of x st) -> sim rep None X (cs_cells s) ((do! x := m in ev e false x) s) (run_expansion ev' e x st)).
  { intros m x H. rewrite run_exp. apply (sim_bind rep); [discriminate|exact H|]. intros X' a b s' st' P S1 R. apply ev0; auto. apply P. }
  destruct f; cbn [cspecial special]; try (apply sim_other).
  - now apply define_ok.
  - apply EXP. now apply let_ok.
  - apply EXP. now apply letstar_ok.
  - apply EXP. now apply letrec_ok.
  - destruct nx as [a|]; [|cbn in T; subst t; apply sim_ub]. apply tails_some in T. destruct T as (c & v & u & -> & N & NX & R & T). rewrite (cbind_get _ _ _ _ N). now apply lambda_ok.
  - now apply set_ok.
  - destruct nx as [a|]; [|cbn in T; subst t; apply (sim_ret rep); auto; constructor]. apply tails_some in T. destruct T as (c & v & u & -> & N & NX & R & T). rewrite (cbind_get _ _ _ _ N). now apply (sim_ret rep).
  - now apply if_ok.
  - now apply (andor_ok ev ev' EV n true).
  - now apply (andor_ok ev ev' EV n false).
  - destruct nx as [a|]; [|cbn in T; subst t; now apply sim_err]. apply tails_some in T. destruct T as (c & v & u & -> & N & NX & R & T). rewrite (cbind_get _ _ _ _ N). now apply delay_ok.
  - destruct nx as [a|]; [|cbn in T; subst t; apply sim_abort]. assert (T2 := T). apply tails_some in T2. destruct T2 as (c & v & u & -> & _). now apply cond_ok.
  - now apply case_ok.
  - destruct nx as [a|]; [|cbn in T; subst t; apply (sim_ret rep); auto; constructor]. assert (T2 := T). apply tails_some in T2. destruct T2 as (c & v & u & -> & _). now apply body_ok.
  - now apply for_each_ok.
  - now apply do_ok.
  - now apply map_ok.
  - now apply apply_form_ok.
  - now apply cwv_ok.
Qed.
Lemma lookup_ok e x X s st : same_state X s st -> bounded X (cs_cells s) -> sim rep None X (cs_cells s) (clookup e x s) (lookup e x st).
Proof.
  intros S0 Bd. unfold clookup, lookup. rewrite cbind_gets. change (ebind (gets (fun st => env_search st e x)) ?f st) with (f (env_search st e x) st). cbv beta.
  pose proof (r_search X s st S0 e x) as H. destruct (c_search s e x), (env_search st e x); cbn in H; try easy; [now apply (sim_ret rep)|now apply sim_err].
Qed.
(* one pass, on a node that holds an operator and operands *)
Lemma node_ok n e own a c h t d X s st : same_state X s st -> bounded X (cs_cells s) -> (own = true -> In a X) -> nth_error (cs_cells s) a = Some c ->
  rep X (cs_cells s) (c_data c) h -> tails X (cs_cells s) (c_next c) t ->
  sim rep (skipof own (CPair a)) X (cs_cells s) (cstep cprim ev n e own (CPair a) s) (step prim ev' n e (VList (h :: t) d) st).
Proof.
  intros S0 Bd OW N R T. set (skip := skipof own (CPair a)). assert (K : forall b, skip = Some b -> In b X) by (unfold skip, skipof; destruct own; [intros b [= <-]; auto|discriminate]).
  cbn [cstep]. rewrite (cbind_get _ _ _ _ N).
  assert (NEW : forall f f' X1 s1 st1 dd, same_state X1 s1 st1 -> bounded X1 (cs_cells s1) -> rep X1 (cs_cells s1) f f' -> tails X1 (cs_cells s1) (c_next c) t ->
     forall sk, sim rep sk X1 (cs_cells s1) ((do! b := alloc (mkCell f (c_next c) false) in ev e true (CPair b)) s1) (ev' e (VList (f' :: t) dd) st1)).
  { intros f f' X1 s1 st1 dd S1 B1 RF TT sk. now apply new_call. }
  assert (SELF : forall v, rep X (cs_cells s) (c_data c) v -> sim rep skip X (cs_cells s) (match c_next c with None => cret (c_data c) | Some _ => cerr end s) (match t with [] => ret v | _ => err end st)).
  { intros v RV. destruct (c_next c) as [b|].
    - apply tails_some in T. destruct T as (c2 & v2 & u & -> & _). now apply sim_err.
    - cbn in T. subst t. now apply (sim_ret rep). }
  destruct (c_data c) as [| |b|z|k|str|x|q|p b pe|nm ar|pa] eqn:DC.
  - inversion R; subst. cbn [step]. now apply sim_err.
  - inversion R; subst. cbn [step]. apply SELF. constructor.
  - inversion R; subst. cbn [step]. apply SELF. constructor.
  - inversion R; subst. cbn [step]. apply SELF. constructor.
  - inversion R; subst. cbn [step]. apply SELF. constructor.
  - inversion R; subst. cbn [step]. apply SELF. constructor.
  - inversion R; subst. cbn [step]. rewrite cbind_gets. change (ebind (gets (fun st => head_value st e x)) ?f st) with (f (head_value st e x) st). cbv beta.
    pose proof (r_head X s st S0 e x) as H.
    assert (M : forall (A : Type) (k1 : list val -> bool -> list val -> env -> A) k2,
       match head_value st e x with Some (VMacro ps dt b me) => k1 ps dt b me | _ => k2 end = k2).
    { intros A k1 k2. destruct (head_value st e x) as [v|]; [|reflexivity]. destruct (c_head s e x) as [cv|]; [|destruct H]. cbn in H. inversion H; reflexivity. }
    rewrite M. clear M. destruct (form_of x) as [f|]; [apply sim_skip; now apply special_ok|].
    apply (sim_bind rep); auto.
    + destruct (c_head s e x), (head_value st e x); cbn in H; try easy; [now apply (sim_ret rep)|now apply lookup_ok].
    + intros X1 v v' s1 st1 P1 S1 RV. assert (B1 := po_bnd _ _ _ _ _ P1). up P1. now apply NEW.
  - assert (HL : exists us dd, h = VList us dd) by (inversion R; subst; eauto). destruct HL as (us & dd & ->). cbn [step].
    apply (ev_bind ev ev' EV); auto. intros X1 f f' s1 st1 P1 S1 B1 RF. up P1. rewrite (cbind_get _ _ _ _ N). now apply NEW.
  - apply sim_skip. inversion R; subst; cbn [step]; apply (apply_ok ev ev' EV); try assumption; solve [split; reflexivity|eexists; eassumption].
  - inversion R; subst. cbn [step]. destruct (beq nm (bs "apply")); [apply sim_skip; now apply apply_form_ok|]. destruct (beq nm (bs "map") || beq nm (bs "map-in-order"))%bool; [apply sim_skip; now apply map_ok|].
    destruct (is_callcc nm); [apply sim_other|].
    apply (sim_bind (fun X h => Forall2 (rep X h))); auto; [now apply args_ok|]. intros X1 us us' s1 st1 P1 S1 F1. assert (B1 := po_bnd _ _ _ _ _ P1). up P1.
    apply (alloc_list_step _ _ _ _ st1 us us'); auto. intros l s2 P2 S2 B2 L2. up P2. unfold cbind at 1, set_next. rewrite N. destruct own.
    + set (s3 := with_cells s2 (upd (cs_cells s2) a (mkCell (c_data c) l (c_dot c)))).
      assert (I1 : In a X1) by (apply (po_incl _ _ _ _ _ P1), OW; reflexivity).
      assert (P3 : post (Some a) X1 (cs_cells s2) X1 (cs_cells s3)) by (apply post_upd; auto).
      assert (KK : forall b, Some a = Some b -> In b X1) by (intros b [= <-]; exact I1).
      assert (C : sim rep None X1 (cs_cells s3) (ccall cprim ev n nm ar us s3) (call_func prim ev' n nm ar us' st1)).
      { apply call_ok; auto.
        - unfold s3. apply (state_mono (Some a) X1 s2); auto.
        - apply P3.
        - revert F1. apply Forall2_imp. apply (rep_mono _ _ _ _ _ P3 KK). }
      cbn [skip skipof]. unfold skip. cbn [skipof]. eapply sim_pre_skip; [exact P3|]. destruct (ccall cprim ev n nm ar us s3) as [r o]. exact C.
    + destruct (ccall cprim ev n nm ar us _) as [r o]. intro E. discriminate E.
  - inversion R; subst. cbn [step]. now apply sim_err.
Qed.
Lemma step_ok n : agrees (cstep cprim ev n) (step prim ev' n).
Proof.
  intros e own X s st x v S0 Bd EN. destruct EN as [x v -> R|a c hv t d -> N I R T].
  - destruct R.
    1,2,3,4,5,6,8,9,11,12: cbn [cstep step skipof]; apply (sim_ret rep); auto; try (constructor; auto; fail).
    + econstructor; eauto.
    + econstructor; eauto.
    + cbn [cstep step skipof]. destruct (match s0 with [] => false | c :: _ => (c =? 58)%Z end); [apply (sim_ret rep); auto; constructor|now apply lookup_ok].
    + apply reps_inv in H. destruct H as (c & h & t & -> & N & NX & R & T & _). apply node_ok with (c := c); auto. discriminate.
  - apply node_ok with (c := c); auto.
Qed.
End Calls.
Lemma eval_ok cprim prim : prims_agree cprim prim -> forall n, agrees (ceval cprim n) (eval prim n).
Proof.
  intros PA n. induction n as [|n IH]; [intros e own X s st x v _ _ _; apply sim_fuel|]. intros e own X s st x v. apply (step_ok cprim prim PA _ _ IH n).
Qed.
