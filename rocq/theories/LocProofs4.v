From Coq Require Import Lia String.
From Verif Require Import Base NumModel HeapModel StringModel ParseModel ParseSpec ParseProofs ParseProofs2 LocModel LocSpec LocProofs LocProofs2 LocProofs3.
Local Open Scope list_scope.
Local Open Scope Z_scope.

(** Whole texts. *)
Lemma one_ok st : own st -> Post st oe (GX st) (l_one st) (parse_expr (rest st)).
Proof. intros O. unfold l_one, parse_expr. apply full; auto. now apply linv_all. Qed.

Lemma parse_ok st : own st ->
  as_res erase (l_parse st) = parse (rest st) /\
  (forall d st', l_parse st = POk d st' -> exists lx, step lx st st' /\ good lx st d /\ at0 (rest st') = 0) /\
  (forall e st', l_parse st = PErr e st' -> exists lx, step lx st st').
Proof.
  intros O. pose proof (one_ok st O) as H. unfold l_parse, parse.
  destruct (l_one st) as [[d|] st1|e st1| | |]; destruct (parse_expr (rest st)) as [[b r]| | | |]; cbn in H; try contradiction; cbn [pbind bind].
  - destruct H as (-> & -> & lx & S1 & G). cbn [option_map].
    destruct (step_skip st1) as (w & SS). assert (S2 := step_trans _ _ _ _ _ S1 SS). rewrite <- rest_skip.
    destruct (at0 (rest (pskip st1)) =? 0) eqn:E; cbn [negb].
    + split; [reflexivity|]. split; [|discriminate]. intros d' st' [= <- <-]. exists ([Space w] ++ lx). split; auto. split; [now apply good_more_l|]. now apply Z.eqb_eq.
    + unfold perr. rewrite (not_stale _ (own_step _ _ _ O S2)). split; [reflexivity|]. split; [discriminate|]. intros e st' [= <- <-]. eauto.
  - destruct H as (-> & -> & lx & S1 & _). cbn [option_map].
    destruct (step_skip st1) as (w & SS). assert (S2 := step_trans _ _ _ _ _ S1 SS).
    unfold perr. rewrite (not_stale _ (own_step _ _ _ O S2)). split; [reflexivity|]. split; [discriminate|]. intros e st' [= <- <-]. eauto.
  - destruct H as (lx & S1). split; [reflexivity|]. split; [discriminate|]. intros e' st' [= <- <-]. eauto.
  - split; [reflexivity|]. split; discriminate.
  - split; [reflexivity|]. split; discriminate.
  - split; [reflexivity|]. split; discriminate.
Qed.

Lemma loop_ok : forall n st, own st ->
  as_res (map erase) (l_loop n st) = p_all n (rest st) /\
  (forall ds st', l_loop n st = POk ds st' -> stk st' = [] /\ exists lx, step lx st st' /\ Forall (good lx st) ds /\ at0 (rest st') = 0) /\
  (forall e st', l_loop n st = PErr e st' -> exists lx, step lx st st').
Proof.
  induction n as [|n IH]; intros st O; cbn [l_loop p_all]; [split; [reflexivity|split; discriminate]|].
  destruct (step_skip st) as (w & SS). assert (O1 := own_step _ _ _ O SS). cbv zeta.
  rewrite <- (rest_skip st). 
  assert (RR : parse_expr (rest st) = parse_expr (rest (pskip st))).
  { rewrite rest_skip.
    assert (E : parse_expr (rest st) = p_expr (parse_fuel (rest st)) (skip (rest st))).
    { unfold parse_expr, parse_fuel. rewrite !(Nat.add_comm _ 3). cbn [p_expr Nat.add]. now rewrite skip_idem. }
    rewrite E. symmetry. apply parse_expr_any. rewrite <- E. unfold parse_expr.
    pose proof (proj1 (inv_all (parse_fuel (rest st))) (rest st)) as A. intros F. rewrite F in A. cbn in A. unfold parse_fuel in A. lia. }
  rewrite RR.
  destruct (at0 (rest (pskip st)) =? 0) eqn:Z0.
  { split; [reflexivity|]. split; [|discriminate]. intros ds st' [= <- <-]. split; [reflexivity|].
    exists ([] ++ [Space w]). split; [eapply step_trans; [exact SS|apply step_clear]|]. split; [constructor|]. now apply Z.eqb_eq. }
  set (st1 := pskip st) in *. clearbody st1.
  pose proof (one_ok st1 O1) as H.
  destruct (l_one st1) as [[d|] st2|e st2| | |]; destruct (parse_expr (rest st1)) as [[b r]| | | |] eqn:PE; cbn in H; try contradiction; cbn [pbind bind].
  - destruct H as (-> & -> & lx & S1 & G). cbn [option_map].
    assert (S2 := step_trans _ _ _ _ _ SS S1). 
    assert (S3 := step_trans _ _ _ _ _ S2 (step_clear st2)).
    destruct (step_skip (clear_stack st2)) as (w2 & SS2). assert (S4 := step_trans _ _ _ _ _ S3 SS2).
    destruct (IH (pskip (clear_stack st2)) (own_step _ _ _ O S4)) as (A & B & C).
    rewrite rest_skip in A. change (rest (clear_stack st2)) with (rest st2) in A.
    destruct (l_loop n (pskip (clear_stack st2))) as [ds st3|e st3| | |]; rewrite <- A; cbn [as_res pbind bind map].
    + split; [reflexivity|]. split; [|discriminate]. intros ds' st' [= <- <-].
      destruct (B ds st3 eq_refl) as (K & lx3 & S5 & G3 & Z3). split; auto.
      exists (lx3 ++ ([Space w2] ++ ([] ++ (lx ++ [Space w])))). split; [eapply step_trans; [exact S4|exact S5]|]. split; auto.
      constructor.
      * apply good_more_l, good_more_l. cbn [app]. eapply good_later; [exact SS|exact G].
      * eapply goods_lift; [exact S4|exact G3].
    + split; [reflexivity|]. split; [discriminate|]. intros e' st' [= <- <-]. destruct (C e st3 eq_refl) as (lx3 & S5). eexists. eapply step_trans; [exact S4|exact S5].
    + split; [reflexivity|]. split; discriminate.
    + split; [reflexivity|]. split; discriminate.
    + split; [reflexivity|]. split; discriminate.
  - destruct H as (-> & -> & lx & S1 & _). cbn [option_map].
    assert (S2 := step_trans _ _ _ _ _ SS S1).
    destruct (Nat.eqb _ _).
    + unfold perr. rewrite (not_stale _ (own_step _ _ _ O S2)). split; [reflexivity|]. split; [discriminate|]. intros e st' [= <- <-]. eauto.
    + split; [reflexivity|]. split; [|discriminate]. intros ds st' [= <- <-]. split; [reflexivity|].
      exists ([] ++ (lx ++ [Space w])). split; [eapply step_trans; [exact S2|apply step_clear]|]. split; [constructor|].
      pose proof (proj1 (inv_all (parse_fuel (rest st1))) (rest st1)) as A. unfold parse_expr in PE. rewrite PE in A. cbn in A. tauto.
  - destruct H as (lx & S1). split; [reflexivity|]. split; [discriminate|]. intros e' st' [= <- <-]. eexists. eapply step_trans; [exact SS|exact S1].
  - split; [reflexivity|]. split; discriminate.
  - split; [reflexivity|]. split; discriminate.
  - split; [reflexivity|]. split; discriminate.
Qed.
