(** The invariant holds in every world a form reaches, whatever the fuel. *)
From Coq Require Import String Lia.
From Verif Require Import Base ParseModel ParseProofs EnvModel EnvSpec EnvProofs ModsysModel ModsysSpec ModsysProofs.
Local Open Scope string_scope.
Local Open Scope list_scope.
Notation "[ ]" := (@nil _) : list_scope.

Section FormInd.
Context (P : form -> Prop).
Context (H1 : forall x r, P (FDefine x r)) (H2 : forall x v, P (FDefineProc x v)) (H3 : forall x r, P (FSet x r))
  (H4 : forall x, P (FRef x)) (H5 : forall n o, P (FDefineModule n o)) (H6 : forall l, P (FUse l))
  (H7 : forall l, P (FExport l)) (H8 : forall l, P (FReExport l)) (H9 : forall x r, P (FDefinePublic x r))
  (H10 : forall x v, P (FDefinePublicProc x v)) (H11 : forall n, P (FResolve n)) (H12 : forall n, P (FEnter n))
  (H13 : forall n x, P (FModuleRef n x)) (H14 : forall n s, P (FModuleUse n s)) (H15 : P FFail)
  (H16 : forall fs, Forall P fs -> P (FTry fs)).
Fixpoint form_ind2 (f : form) : P f :=
  match f with
  | FDefine x r => H1 x r | FDefineProc x v => H2 x v | FSet x r => H3 x r | FRef x => H4 x
  | FDefineModule n o => H5 n o | FUse l => H6 l | FExport l => H7 l | FReExport l => H8 l
  | FDefinePublic x r => H9 x r | FDefinePublicProc x v => H10 x v | FResolve n => H11 n | FEnter n => H12 n
  | FModuleRef n x => H13 n x | FModuleUse n s => H14 n s | FFail => H15
  | FTry fs => H16 fs ((fix go (l : list form) : Forall P l :=
      match l with [] => Forall_nil P | g :: r => Forall_cons g (form_ind2 g) (go r) end) fs)
  end.
End FormInd.
Lemma run_try o e fs w : run_form o e (FTry fs) w =
  let (e1, st1) := make_env (w_st w) e in
  match run_all o e1 fs (with_st w st1) with Raised w1 => Done tt w1 | r => r end.
Proof. reflexivity. Qed.

Definition good {A} (w : world) (Q : A -> world -> Prop) (r : outcome A) : Prop :=
  match r with
  | Done a w' => wf w' /\ ext w w' /\ Q a w'
  | Raised w' => wf w' /\ ext w w'
  | OutOfFuel => True
  end.
Lemma good_bind {A B} w (Q : A -> world -> Prop) (R : B -> world -> Prop) r (f : A -> world -> outcome B) :
  wf w -> good w Q r -> (forall a w1, wf w1 -> ext w w1 -> Q a w1 -> good w1 R (f a w1)) -> good w R (bind r f).
Proof.
  intros W G K. destruct r as [a w1|w1|]; cbn in *; auto. destruct G as (W1 & E1 & QA).
  specialize (K a w1 W1 E1 QA). destruct (f a w1) as [b w2|w2|]; cbn in *; auto.
  - destruct K as (W2 & E2 & RB). split; [auto|]. split; [eapply ext_trans; eauto|auto].
  - destruct K as (W2 & E2). split; [auto|]. eapply ext_trans; eauto.
Qed.
Lemma good_step {A} w w1 (Q : A -> world -> Prop) r : wf w -> ext w w1 -> good w1 Q r -> good w Q r.
Proof.
  intros W E1 G. destruct r as [b w2|w2|]; cbn in *; auto.
  - destruct G as (W2 & E2 & RB). split; [auto|]. split; [eapply ext_trans; eauto|auto].
  - destruct G as (W2 & E2). split; [auto|]. eapply ext_trans; eauto.
Qed.
Lemma good_done {A} w w1 (Q : A -> world -> Prop) a : wf w1 /\ ext w w1 -> Q a w1 -> good w Q (Done a w1).
Proof. intros [A1 A2] H. cbn. auto. Qed.
Lemma good_weak {A} w (Q R : A -> world -> Prop) r : (forall a w', ext w w' -> Q a w' -> R a w') -> good w Q r -> good w R r.
Proof. intros H. destruct r; cbn; auto. intros (A1 & A2 & A3). auto. Qed.

(* the current module is c *)
Definition at_cur {A} (c : nat) (a : A) (w' : world) : Prop := s_cur (w_st w') = c.
Record ops_good (o : ops) : Prop := {
  og_resolve : forall n w, wf w ->
    good w (fun m w' => In (n, m) (w_reg w') /\ at_cur (s_cur (w_st w)) m w') (o_resolve o n w);
  og_search : forall m x w, wf w -> In m (ids w) -> good w (at_cur (s_cur (w_st w))) (o_search o m x w) }.
Lemma in_reg_ids w n m : In (n, m) (w_reg w) -> In m (ids w).
Proof. intros H. apply in_map_iff. exists (n, m). auto. Qed.
Lemma env_ok_ext w w' e : ext w w' -> env_ok w e -> env_ok w' e.
Proof. intros X E m H. eapply ext_ids; eauto. Qed.
Lemma good_here {A} w (Q : A -> world -> Prop) a : wf w -> Q a w -> good w Q (Done a w).
Proof. intros W H. apply good_done; [split; [auto|apply ext_refl]|auto]. Qed.
Lemma good_raise {A} w (Q : A -> world -> Prop) : wf w -> good w Q (Raised w).
Proof. intros W. cbn. split; [auto|apply ext_refl]. Qed.

Section Good.
Context (o : ops) (O : ops_good o).
Lemma srch m x w c : wf w -> In m (ids w) -> s_cur (w_st w) = c -> good w (at_cur c) (o_search o m x w).
Proof. intros W I <-. apply (og_search _ O); auto. Qed.
Lemma rslv n w c : wf w -> s_cur (w_st w) = c -> good w (fun m w' => In (n, m) (w_reg w') /\ at_cur c m w') (o_resolve o n w).
Proof. intros W <-. apply (og_resolve _ O); auto. Qed.
Lemma ref_var_good e x w c : wf w -> env_ok w e -> s_cur (w_st w) = c -> good w (at_cur c) (ref_var o e x w).
Proof.
  intros W E C. unfold ref_var. destruct (env_exist (w_st w) e x); [apply good_here; auto|].
  destruct (search_entry (w_st w) e x true) as [[a v]|]; [apply good_here; auto|].
  apply (good_bind w (at_cur c)); auto.
  - destruct (e_mod e) as [m|] eqn:M; [apply srch; auto|apply good_here; auto].
  - intros r w1 W1 E1 C1. destruct r as [v|]; [apply good_here; auto|].
    apply (good_bind w1 (at_cur c)); auto.
    + apply srch; auto. apply wf_cur; auto.
    + intros [v|] w2 W2 E2 C2; apply good_here; auto.
Qed.
Lemma value_of_good e r w c : wf w -> env_ok w e -> s_cur (w_st w) = c -> good w (at_cur c) (value_of o e r w).
Proof.
  intros W E C. destruct r as [v|x]; cbn [value_of]; [apply good_here; auto|].
  destruct (hd 0%Z x =? 58)%Z; [apply good_here; auto|].
  apply (good_bind w (at_cur c)); auto; [apply ref_var_good; auto|].
  intros [v|] w1 W1 E1 C1; [apply good_here; auto|apply good_raise; auto].
Qed.
Lemma export1_good m x w c : wf w -> In m (ids w) -> s_cur (w_st w) = c -> good w (at_cur c) (export1 o m x w).
Proof.
  intros W I CC. destruct (note_export_wf m x w W I) as (W1 & E1 & X1 & _).
  assert (H := ensure_pub_world m (note_export m x w) I W1).
  unfold export1. cbv zeta. change (set_mod (w_st w) m _) with (w_st (note_export m x w)).
  assert (C : s_cur (snd (ensure_pub (w_st (note_export m x w)) m)) = c).
  { unfold ensure_pub. destruct (m_pub _); [exact CC|]. cbn [new_module snd].
    match goal with |- s_cur (fold_left _ ?ll ?ss) = _ => assert (Q : s_cur ss = c) by exact CC; revert Q; generalize ss; generalize ll end.
    intros l. induction l as [|y l IH]; intros s0 Q; cbn [fold_left]; auto.
    apply IH. destruct (ob_lookup _ _ _); auto. }
  destruct (ensure_pub (w_st (note_export m x w)) m) as [p st2]. cbn [snd] in C. destruct H as (W2 & E2 & P2).
  change (with_st (note_export m x w) st2) with (with_st w st2) in *.
  assert (E : ext w (with_st w st2)) by (eapply ext_trans; eauto).
  apply (good_step w (with_st w st2)); auto.
  assert (I2 : In m (ids (with_st w st2))) by exact I.
  apply (good_bind _ (at_cur c)); auto; [apply srch; auto|].
  intros [v|] w3 W3 E3 C3; [|apply good_here; auto].
  apply good_done; [|exact C3]. apply ob_step_wf; auto. apply ob_set_step; auto.
  right. right. exists m. split; [eapply ext_ids; eauto|]. split; [eapply ext_pub; eauto|].
  apply (ext_exports _ _ E3 m I2). exact (ext_exports _ _ E2 m I x X1).
Qed.
Lemma export_all_good m c l : forall w, wf w -> In m (ids w) -> s_cur (w_st w) = c -> good w (at_cur c) (export_all o m l w).
Proof.
  induction l as [|d l IH]; intros w W I C; cbn [export_all]; [apply good_here; auto|].
  destruct d as [[x| |]|]; try (apply IH; auto; fail).
  apply (good_bind w (at_cur c)); auto; [apply export1_good; auto|]. intros ? w1 W1 E1 C1.
  apply IH; auto. eapply ext_ids; eauto.
Qed.
Lemma re_export_all_good m c l : forall w, wf w -> In m (ids w) -> s_cur (w_st w) = c -> good w (at_cur c) (re_export_all o m l w).
Proof.
  induction l as [|d l IH]; intros w W I C; cbn [re_export_all]; [apply good_here; auto|].
  destruct d as [[x| |]|]; try (apply IH; auto; fail).
  apply (good_bind w (at_cur c)); auto; [apply srch; auto|]. intros ? w1 W1 E1 C1. assert (I1 := ext_ids _ _ _ E1 I).
  apply (good_bind w1 (at_cur c)); auto; [apply export1_good; auto|]. intros ? w2 W2 E2 C2. apply IH; auto. eapply ext_ids; eauto.
Qed.
Lemma use_all_good m c l : forall w, wf w -> In m (ids w) -> s_cur (w_st w) = c -> good w (at_cur c) (use_all o m l w).
Proof.
  induction l as [|d l IH]; intros w W I C; cbn [use_all]; [apply good_here; auto|].
  destruct d as [|[|a n]]; try (apply IH; auto; fail).
  apply (good_bind _ _ _ _ _ W (rslv (a :: n) w c W C)). intros u w1 W1 E1 [R1 C1]. assert (I1 := ext_ids _ _ _ E1 I).
  destruct (add_log_wf w1 (EvPrint (a :: n)) W1) as [W2 E2]; [discriminate|].
  destruct (add_use_wf m u (add_log w1 (EvPrint (a :: n))) W2) as [W3 E3]; [exact I1|eapply in_reg_ids, R1|].
  eapply good_step; [exact W1|eapply ext_trans; [exact W1|exact E2|exact E3]|]. apply IH; auto.
Qed.
Lemma do_opts_good m c l : forall ex w, wf w -> In m (ids w) -> s_cur (w_st w) = c -> good w (at_cur c) (do_opts o m ex l w).
Proof.
  remember (length l) as n eqn:N. revert l N. induction n as [n IH] using lt_wf_ind. intros l N ex w W I C.
  destruct l as [|d l]; [apply good_here; auto|]. cbn in N.
  assert (G : forall ex w, wf w -> In m (ids w) -> s_cur (w_st w) = c -> good w (at_cur c) (do_opts o m ex l w)).
  { intros. eapply IH; [|reflexivity|..]; auto; lia. }
  assert (G2 : forall d2 l2 ex w, l = d2 :: l2 -> wf w -> In m (ids w) -> s_cur (w_st w) = c -> good w (at_cur c) (do_opts o m ex l2 w)).
  { intros d2 l2 ex2 w2 -> ? ? ?. cbn in N. eapply IH; [|reflexivity|..]; auto; lia. }
  destruct d as [[k|z|t]|q]; cbn [do_opts]; auto. destruct ex.
  - apply (good_bind w (at_cur c)); auto; [apply export1_good; auto|]. intros ? w1 W1 E1 C1. apply G; auto. eapply ext_ids; eauto.
  - destruct (beq k (bs "use-module")).
    { destruct l as [|[a|[|a n0]] l2]; [apply good_here; auto|eapply G2; eauto|eapply G2; eauto|].
      apply (good_bind _ _ _ _ _ W (rslv (a :: n0) w c W C)). intros u w1 W1 E1 [R1 C1]. assert (I1 := ext_ids _ _ _ E1 I).
      destruct (add_use_wf m u w1 W1 I1 (in_reg_ids _ _ _ R1)) as [W3 E3].
      eapply good_step; [exact W1|exact E3|]. eapply G2; eauto. }
    destruct (beq k (bs "export")); [apply G; auto|].
    destruct (beq k (bs "autoload")); [|apply G; auto].
    destruct l as [|[a|[|a n0]] l2]; [apply good_here; auto|eapply G2; eauto|eapply G2; eauto|].
    destruct (add_auto_wf m (a :: n0) (syms_of l2) w W I) as [W3 E3].
    eapply good_step; [exact W|exact E3|]. eapply G2; eauto; [eapply ext_ids; [exact E3|exact I]|destruct (syms_of l2); exact C].
Qed.
Lemma named_module_good n w : wf w ->
  let (m, w1) := named_module n w in wf w1 /\ ext w w1 /\ In m (ids w1) /\ s_cur (w_st w1) = s_cur (w_st w).
Proof.
  intros W. unfold named_module. destruct (reg_find n (w_reg w)) as [m|] eqn:R.
  - apply reg_find_in in R. split; [auto|]. split; [apply ext_refl|]. split; [eapply in_reg_ids; eauto|reflexivity].
  - apply reg_find_none in R. destruct (register_wf n w W R) as [W1 E1]. split; [exact W1|]. split; [exact E1|]. split; [now left|reflexivity].
Qed.
Definition anyQ {A} (a : A) (w : world) : Prop := True.
Lemma good_any {A} w (Q : A -> world -> Prop) r : good w Q r -> good w anyQ r.
Proof. apply good_weak. intros; exact I. Qed.
Lemma run_all_good e fs : (forall g, In g fs -> forall e w, wf w -> env_ok w e -> good w anyQ (run_form o e g w)) ->
  forall w, wf w -> env_ok w e -> good w anyQ (run_all o e fs w).
Proof.
  induction fs as [|g fs IH]; intros H w W E; cbn [run_all]; [apply good_here; auto; exact I|].
  apply (good_bind w anyQ); auto; [apply H; auto; now left|]. intros ? w1 W1 E1 _.
  apply IH; auto; [intros; apply H; auto; now right|eapply env_ok_ext; eauto].
Qed.
Lemma step_done w w1 st' : wf w -> ext w w1 -> wf w1 -> ob_step w1 st' -> good w1 anyQ (Done tt (with_st w1 st')).
Proof. intros W E1 W1 S1. apply good_done; [apply ob_step_wf; auto|exact I]. Qed.
Lemma run_form_good f : forall e w, wf w -> env_ok w e -> good w anyQ (run_form o e f w).
Proof.
  induction f as [x r|x v|x r|x|n l|l|l|l|x r|x v|n|n|n x|n s| |fs IH] using form_ind2; intros e w W E.
  - cbn [run_form]. eapply good_bind; [auto|eapply value_of_good; auto|]. intros v w1 W1 E1 _.
    apply (step_done w); auto. apply define_var_step; auto. eapply env_ok_ext; eauto.
  - cbn [run_form]. apply (step_done w); auto; [apply ext_refl|]. apply define_proc_step; auto.
  - cbn [run_form]. eapply good_bind; [auto|eapply value_of_good; auto|]. intros v w1 W1 E1 _.
    apply (step_done w); auto. apply do_set_step; auto.
  - cbn [run_form]. eapply good_bind; [auto|eapply value_of_good; auto|]. intros v w1 W1 E1 _.
    apply good_done; [apply add_log_wf; auto; discriminate|exact I].
  - cbn [run_form]. destruct n as [|a n]; [apply good_raise; auto|].
    assert (H := named_module_good (a :: n) w W). destruct (named_module (a :: n) w) as [m w1]. destruct H as (W1 & E1 & I1 & _).
    eapply good_step; [auto|exact E1|]. eapply good_bind; [auto|eapply do_opts_good; auto|]. intros ? w2 W2 E2 _.
    apply good_done; [apply enter_wf; auto; eapply ext_ids; eauto|exact I].
  - cbn [run_form]. eapply good_any, use_all_good; auto. apply wf_cur, W.
  - cbn [run_form]. eapply good_any, export_all_good; auto. apply wf_cur, W.
  - cbn [run_form]. eapply good_any, re_export_all_good; auto. apply wf_cur, W.
  - cbn [run_form]. eapply good_bind; [auto|eapply value_of_good; auto|]. intros v w1 W1 E1 _. cbv zeta.
    destruct (ob_step_wf w1 _ W1 (define_var_step w1 e x v W1 (env_ok_ext _ _ _ E1 E))) as [W2 E2].
    eapply good_step; [auto|exact E2|]. eapply good_any, export1_good; auto. apply wf_cur, W2.
  - cbn [run_form]. cbv zeta. destruct (ob_step_wf w _ W (define_proc_step w x v W)) as [W2 E2].
    eapply good_step; [auto|exact E2|]. eapply good_any, export1_good; auto. apply wf_cur, W2.
  - cbn [run_form]. destruct n as [|a n]; [apply good_raise; auto|].
    eapply good_bind; [auto|eapply rslv; auto|]. intros m w1 W1 E1 _. apply good_here; auto. exact I.
  - cbn [run_form]. destruct n as [|a n]; [apply good_raise; auto|].
    eapply good_bind; [auto|eapply rslv; auto|]. intros m w1 W1 E1 [R1 _].
    apply good_done; [apply enter_wf; auto; eapply in_reg_ids; eauto|exact I].
  - cbn [run_form]. destruct n as [|a n]; [apply good_raise; auto|].
    eapply good_bind; [auto|eapply rslv; auto|]. intros m w1 W1 E1 [R1 _].
    destruct (beq x (bs "%module-public-interface")); [apply good_done; [apply add_log_wf; auto; discriminate|exact I]|].
    eapply good_bind; [auto|eapply srch; auto; eapply in_reg_ids; eauto|]. intros [v|] w2 W2 E2 _; [|apply good_raise; auto].
    apply good_done; [apply add_log_wf; auto; discriminate|exact I].
  - cbn [run_form]. destruct n as [|a n]; [apply good_raise; auto|]. destruct s as [|b s].
    + eapply good_bind; [auto|eapply rslv; auto|]. intros m w1 W1 E1 _. apply good_raise; auto.
    + eapply good_bind; [auto|eapply rslv; auto|]. intros m w1 W1 E1 [R1 _].
      eapply good_bind; [auto|eapply rslv; auto|]. intros u w2 W2 E2 [R2 _].
      apply good_done; [apply add_use_wf; auto; [eapply ext_ids; [exact E2|]|]; eapply in_reg_ids; eauto|exact I].
  - apply good_raise; auto.
  - rewrite run_try. rewrite Forall_forall in IH. assert (S1 := make_env_step w e).
    destruct (make_env (w_st w) e) as [e1 st1] eqn:ME. cbn [snd] in S1. destruct (ob_step_wf _ _ W S1) as [W1 E1].
    assert (K : env_ok (with_st w st1) e1).
    { unfold make_env in ME. injection ME as <- _. exact E. }
    assert (G := run_all_good e1 fs (fun g Hg => IH g Hg) (with_st w st1) W1 K).
    apply (good_step w) in G; auto. destruct (run_all o e1 fs (with_st w st1)); cbn in *; auto. destruct G. split; [auto|]. split; [auto|exact I].
Qed.
Lemma run_all_ok e fs w : wf w -> env_ok w e -> good w anyQ (run_all o e fs w).
Proof. intros. apply run_all_good; auto. intros. apply run_form_good; auto. Qed.
Lemma resolve_body_good fs n w : wf w ->
  good w (fun m w' => In (n, m) (w_reg w') /\ at_cur (s_cur (w_st w)) m w') (resolve_body o fs n w).
Proof.
  intros W. unfold resolve_body. destruct (reg_find n (w_reg w)) as [m|] eqn:R.
  - apply reg_find_in in R. apply good_here; auto. split; [auto|reflexivity].
  - apply reg_find_none in R. cbn [new_module]. destruct (register_wf n w W R) as [W1 E1].
    assert (R1 : In (n, length (s_mods (w_st w))) (w_reg (register n w))) by now left.
    change (mkWorld _ ((n, length (s_mods (w_st w))) :: w_reg w) (w_auto w) (w_log w)) with (register n w).
    destruct (find_file fs (w_st w) n) as [[p body]|].
    + cbn [make_module_env make_env].
      match goal with |- context [with_st (register n w) (set_current ?ss ?mm)] => set (st2 := ss); set (m := mm) end.
      assert (S2 : ob_step (register n w) st2) by (constructor; auto).
      destruct (ob_step_wf _ _ W1 S2) as [W2 E2].
      destruct (enter_wf (with_st (register n w) st2) m W2) as [W3 E3]; [now left|].
      change (enter m (with_st (register n w) st2)) with (with_st (register n w) (set_current st2 m)) in *.
      destruct (add_log_load_wf _ n p W3) as [W4 E4]; [now left|intros Q; apply R; apply (wf_loaded _ W); exact Q|].
      assert (E : ext w (add_log (with_st (register n w) (set_current st2 m)) (EvLoad n p))).
      { eapply ext_trans; [auto|exact E1|]. eapply ext_trans; [auto|exact E2|]. eapply ext_trans; [auto|exact E3|exact E4]. }
      eapply good_step; [auto|exact E|].
      destruct body as [|f body]; [apply good_raise; auto|].
      eapply good_bind; [auto|apply run_all_ok; auto; intros k [= <-]; now left|]. intros ? w5 W5 E5 _.
      assert (R5 : In (n, m) (w_reg w5)). { destruct (ext_reg _ _ E5) as [l Q]. rewrite Q. apply in_or_app. right. now left. }
      apply good_done; [|split; [exact R5|reflexivity]]. apply enter_wf; auto. eapply ext_ids; [exact E5|]. eapply ext_ids; [exact E|]. apply wf_cur, W.
    + apply good_done.
      * destruct (add_log_wf (register n w) (EvWarn n) W1) as [W2 E2]; [discriminate|]. split; [auto|]. eapply ext_trans; eauto.
      * split; [exact R1|reflexivity].
Qed.
Lemma search_body_good m x w : wf w -> In m (ids w) -> good w (at_cur (s_cur (w_st w))) (search_body o m x w).
Proof.
  intros W I0. unfold search_body. destruct (mod_search (w_st w) m x); [apply good_here; auto; reflexivity|].
  destruct (take_auto m x (w_auto w)) as [[n r]|] eqn:T; [|apply good_here; auto; reflexivity].
  apply take_auto_sub in T. destruct T as (l1 & xs & l2 & TA & -> & _).
  destruct (drop_auto_wf w (l1 ++ l2) W) as [W1 E1].
  { intros s H. rewrite TA. apply in_app_or in H. apply in_or_app. destruct H; [auto|right; now right]. }
  eapply good_step; [auto|exact E1|]. eapply good_bind; [auto|eapply rslv; auto; reflexivity|]. intros u w1 W2 E2 [R2 C2].
  assert (I2 : In m (ids w1)) by (eapply ext_ids; [exact E2|exact I0]).
  destruct (add_use_wf m u w1 W2 I2 (in_reg_ids _ _ _ R2)) as [W3 E3].
  eapply good_step; [auto|exact E3|]. eapply srch; auto.
Qed.
End Good.
Lemma sys_good fs n : ops_good (sys fs n).
Proof.
  induction n as [|n IH]; constructor; cbn [sys o_resolve o_search].
  - intros; exact I.
  - intros; exact I.
  - intros m w W. apply resolve_body_good; auto.
  - intros m x w W I0. apply search_body_good; auto.
Qed.
Lemma init_wf g : wf (init_world g).
Proof.
  constructor; cbn; auto.
  - constructor; [intros []|constructor].
  - constructor; [intros []|constructor].
  - intros m [<-|[]]. lia.
  - intros m p [<-|[]]. cbn. discriminate.
  - intros m u [<-|[]]. cbn. intros [].
  - constructor.
Qed.
Lemma top_good fs n f w : wf w -> good w anyQ (top fs n f w).
Proof. intros W. apply run_form_good; auto; [apply sys_good|discriminate]. Qed.
Lemma ends_good {A} w (Q : A -> world -> Prop) r w' : good w Q r -> ends r w' -> wf w' /\ ext w w'.
Proof. intros G [[a ->]| ->]; cbn in G; tauto. Qed.
Lemma session_good fs w l w' : wf w -> session fs w l w' -> wf w' /\ ext w w'.
Proof.
  intros W S1. induction S1 as [w|w l w1 f fuel w2 S1 IH E].
  - split; [auto|apply ext_refl].
  - destruct (IH W) as [W1 E1]. destruct (ends_good _ _ _ _ (top_good fs fuel f w1 W1) E) as [W2 E2]. split; [auto|]. eapply ext_trans; eauto.
Qed.
Lemma reachable_wf fs w : reachable fs w -> wf w.
Proof. intros (g & l & S1). apply (session_good _ _ _ _ (init_wf g)) in S1. tauto. Qed.
