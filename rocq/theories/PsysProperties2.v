(** C89: the current ports. *)
From Coq Require Import Lia String.
From Verif Require Import Base NumModel StringModel ParseModel PrintModel PortModel PortSpec PortProofs PsysModel PsysSpec PsysProofs PsysProofs2 PsysProofs3 PsysProofs4 PsysProperties.
Local Open Scope list_scope.
Local Open Scope nat_scope.

Definition cur (x : which) (w : world) : nat := match x with Input => w_in w | Output => w_out w | Error => w_err w end.
Definition same_cur (w w' : world) : Prop := w_in w' = w_in w /\ w_out w' = w_out w /\ w_err w' = w_err w.
Lemma sc_refl w : same_cur w w. Proof. repeat split. Qed.
Lemma sc_trans a b d : same_cur a b -> same_cur b d -> same_cur a d.
Proof. unfold same_cur. intuition congruence. Qed.
Lemma fput_cur c w i s w' : fput c w i s = Ok w' -> same_cur w w'.
Proof. unfold fput, push. intros H. repeat inv1. repeat split. Qed.
Lemma fflush_cur w i w' : fflush w i = Ok w' -> same_cur w w'.
Proof. unfold fflush, push. intros H. repeat inv1. repeat split. Qed.
Lemma fclose_cur w i w' : fclose w i = Ok w' -> same_cur w w'.
Proof. unfold fclose, push. intros H. repeat inv1; repeat split. Qed.
Lemma fgetc_cur c w i o w' : fgetc c w i = Ok (o, w') -> same_cur w w'.
Proof. unfold fgetc. intros H. repeat inv1; repeat split. Qed.
Lemma ungetc_cur w i b w' : ungetc w i b = Ok w' -> same_cur w w'.
Proof. unfold ungetc. intros H. repeat inv1; repeat split. Qed.
Lemma call_cur c w s args o w' : call_slot c w s args = (o, w') -> same_cur w w'.
Proof. unfold call_slot. intros H. destruct s; inversion H; subst; repeat split. Qed.
Lemma sp_cur w w' k p : same_cur w w' -> same_cur w (set_port w' k p).
Proof. intros H. exact H. Qed.
Ltac ct :=
  repeat match goal with
  | H : fput _ _ _ _ = Ok _ |- _ => apply fput_cur in H
  | H : fflush _ _ = Ok _ |- _ => apply fflush_cur in H
  | H : fclose _ _ = Ok _ |- _ => apply fclose_cur in H
  | H : fgetc _ _ _ = Ok _ |- _ => apply fgetc_cur in H
  | H : ungetc _ _ _ = Ok _ |- _ => apply ungetc_cur in H
  | H : call_slot _ _ _ _ = _ |- _ => apply call_cur in H
  end; try apply sp_cur; eauto using sc_refl, sc_trans.
Lemma peek_cur c w p o w' : peek_from c w p = Ok (o, w') -> same_cur w w'.
Proof. unfold peek_from. intros H. repeat inv1; ct. Qed.
Lemma close_cur c w k p a w' : close_port c w k p = Ok (a, w') -> same_cur w w'.
Proof. unfold close_port. intros H. repeat inv1; ct. Qed.
Lemma read_cur c w k p a w' : read_from c w k p = Ok (a, w') -> same_cur w w'.
Proof. unfold read_from. intros H. repeat inv1; ct. Qed.
Lemma write_cur c w k p b a w' : write_char_to c w k p b = Ok (a, w') -> same_cur w w'.
Proof. unfold write_char_to. intros H. repeat inv1; ct. Qed.
Lemma print_cur c w k p b a w' : print_to c w k p b = Ok (a, w') -> same_cur w w'.
Proof. unfold print_to. intros H. repeat inv1; ct. Qed.
Lemma flush_cur c w p a w' : flush_port c w p = Ok (a, w') -> same_cur w w'.
Proof. unfold flush_port. intros H. repeat inv1; ct. Qed.
Lemma step_cur c w o a w' : step c w o = Ok (a, w') -> (forall x, setter x o = None) -> same_cur w w'.
Proof.
  intros H N. enough (same_cur (tick w) w') by (eapply sc_trans; eauto; repeat split). unfold step in H. generalize dependent (tick w). clear w. intros w H.
  destruct o; cbn [prim] in H;
  unfold open_input_file, open_output_file, open_in_string, open_out_string, make_soft_port, close_in, close_out, get_string, prim_read,
    prim_peek, prim_ready, prim_write_char, prim_print, prim_force in H;
  try (specialize (N Input); discriminate N); try (specialize (N Output); discriminate N); try (specialize (N Error); discriminate N);
  repeat inv1; try apply sc_refl; try (repeat split; fail);
  eauto using peek_cur, close_cur, read_cur, write_cur, print_cur, flush_cur, fput_cur, fflush_cur.
Qed.
(* one step, for one of the three *)
Lemma setter_op x o a : setter x o = Some a -> o = set_op x a.
Proof. destruct x, o; cbn; intros H; try discriminate H; now injection H as ->. Qed.
Lemma other_set x o a : setter x o = None -> forall y, o = set_op y a -> y <> x.
Proof. intros H y -> E. subst. destruct x; discriminate H. Qed.
Lemma step_cur_other c w o a w' x : step c w o = Ok (a, w') -> setter x o = None -> cur x w' = cur x w.
Proof.
  intros H N. destruct o; try (assert (S := step_cur _ _ _ _ _ H ltac:(intros []; reflexivity)); destruct S as (S1 & S2 & S3); destruct x; cbn; congruence).
  all: unfold step in H; cbn [prim] in H; repeat inv1; destruct x; try discriminate N; reflexivity.
Qed.
Lemma step_set c w x k : step c w (set_op x (APort k)) =
  match nth_error (w_ports w) k with
  | Some p => if Bool.eqb (pt_input p) (match x with Input => true | _ => false end)
              then Ok (RPort (cur x w), match x with Input => set_cur (tick w) k (w_out w) (w_err w) | Output => set_cur (tick w) (w_in w) k (w_err w) | Error => set_cur (tick w) (w_in w) (w_out w) k end)
              else Ok (RRaise, tick w)
  | None => Ok (RRaise, tick w)
  end.
Proof.
  unfold step. destruct x; cbn [set_op prim get_port tick w_ports]; destruct (nth_error (w_ports w) k) as [p|]; try reflexivity;
  destruct (pt_input p); reflexivity.
Qed.
Lemma step_set_other c w x a : (forall k, a <> APort k) -> step c w (set_op x a) = Ok (RRaise, tick w).
Proof. intros N. destruct a as [k| |]; [elim (N k eq_refl) | |]; destruct x; reflexivity. Qed.

(** ** The getters answer the port last set *)
Theorem c89_getter : forall c files input h l w x, run c (boot files input) h = Ok (l, w) ->
  step c w (getter x) = Ok (RPort (last_set x (initial x) h l), tick w).
Proof.
  intros c files input h l w x H.
  assert (G : forall h w0 l, run c w0 h = Ok (l, w) -> cur x w = last_set x (cur x w0) h l).
  { clear. induction h as [|o h IH]; intros w0 l H.
    - cbn [run] in H. injection H as <- <-. reflexivity.
    - apply run_cons in H. destruct H as (a & l1 & w1 & A & B & ->). cbn [last_set]. rewrite (IH _ _ B).
      destruct (setter x o) as [b|] eqn:S.
      + apply setter_op in S. subst o. destruct b as [k| |].
        * rewrite step_set in A. destruct (nth_error (w_ports w0) k) as [p|]; [|injection A as <- <-; now destruct x].
          destruct (Bool.eqb _ _); injection A as <- <-; now destruct x.
        * rewrite step_set_other in A by discriminate. injection A as <- <-. now destruct x.
        * rewrite step_set_other in A by discriminate. injection A as <- <-. now destruct x.
      + rewrite (step_cur_other _ _ _ _ _ _ A S). now destruct a. }
  specialize (G _ _ _ H). replace (initial x) with (cur x (boot files input)) by now destruct x. rewrite <- G. now destruct x.
Qed.
Print Assumptions c89_getter.

(** ** The setters answer the previous port; a port of the wrong direction, or
    no port at all, raises an error and changes nothing *)
Theorem c89_setter : forall c w x a old,
  step c w (getter x) = Ok (old, tick w) ->
  (step c w (right_direction x a) = Ok (RBool true, tick w) ->
     exists w' k, a = APort k /\ step c w (set_op x a) = Ok (old, w') /\ step c w' (getter x) = Ok (RPort k, tick w') /\
       (forall y, y <> x -> exists o, step c w (getter y) = Ok (o, tick w) /\ step c w' (getter y) = Ok (o, tick w')) /\
       w_files w' = w_files w /\ w_handles w' = w_handles w /\ w_ports w' = w_ports w /\ w_calls w' = w_calls w) /\
  (step c w (right_direction x a) = Ok (RBool false, tick w) -> step c w (set_op x a) = Ok (RRaise, tick w)).
Proof.
  intros c w x a old O. assert (E : old = RPort (cur x w)) by (destruct x; injection O as <-; reflexivity). subst old. clear O.
  destruct a as [k| |].
  - rewrite step_set. unfold step. replace (prim c (tick w) (right_direction x (APort k))) with
      (Ok (RBool match nth_error (w_ports w) k with Some p => Bool.eqb (pt_input p) (match x with Input => true | _ => false end) | None => false end, tick w)).
    2: { destruct x; cbn [right_direction prim get_port tick w_ports]; destruct (nth_error (w_ports w) k) as [p|]; try reflexivity;
         destruct (pt_input p); reflexivity. }
    destruct (nth_error (w_ports w) k) as [p|]; [|split; [discriminate | reflexivity]].
    destruct (Bool.eqb _ _); split; try discriminate; try reflexivity. intros _.
    eexists. exists k. split; [reflexivity|]. split; [reflexivity|]. split; [now destruct x|]. split.
    + intros y N. exists (RPort (cur y w)). destruct x, y; try (elim N; reflexivity); split; reflexivity.
    + destruct x; repeat split.
  - split; intros H; [|now destruct x]. destruct x; discriminate H.
  - split; intros H; [|now destruct x]. destruct x; discriminate H.
Qed.
Print Assumptions c89_setter.

(** ** The current ports always have the right direction *)
Lemma port_persists c w o a w' k p : wf w -> step c w o = Ok (a, w') -> nth_error (w_ports w) k = Some p ->
  exists p', nth_error (w_ports w') k = Some p' /\ later p p'.
Proof.
  intros W H P. assert (F := step_frame _ _ _ _ _ H). destruct (target_dec o k) as [T | T].
  - assert (L : k < length (w_ports w')) by (pose proof (f_plen _ _ _ _ _ F); pose proof (nth_lt _ _ _ P); lia).
    destruct (nth_error (w_ports w') k) as [p'|] eqn:P'; [|apply nth_error_None in P'; lia].
    destruct (f_self _ _ _ _ _ F _ _ T P') as (p0 & Q & LA). assert (p0 = p) by congruence. subst. eauto.
  - exists p. split; [exact (f_keep _ _ _ _ _ F _ _ P T) | apply later_refl].
Qed.
Lemma port_persists_run c : forall h w l w' k p, wf w -> run c w h = Ok (l, w') -> nth_error (w_ports w) k = Some p ->
  exists p', nth_error (w_ports w') k = Some p' /\ later p p'.
Proof.
  induction h as [|o h IH]; intros w l w' k p W H P.
  - cbn [run] in H. injection H as _ <-. eauto using later_refl.
  - apply run_cons in H. destruct H as (a & l1 & w1 & A & B & _).
    destruct (port_persists _ _ _ _ _ _ _ W A P) as (p1 & P1 & L1).
    destruct (IH _ _ _ _ _ (wf_step _ _ _ _ _ W A) B P1) as (p2 & P2 & L2). eauto using later_trans.
Qed.
Definition cur_ok (w : world) : Prop := forall x, exists p, nth_error (w_ports w) (cur x w) = Some p /\ pt_input p = match x with Input => true | _ => false end.
Theorem c89_direction : forall c w x k, reachable c w -> step c w (getter x) = Ok (RPort k, tick w) ->
  step c w (right_direction x (APort k)) = Ok (RBool true, tick w).
Proof.
  intros c w x k (fs & inp & h & l & H) G.
  assert (K : k = cur x w) by (destruct x; injection G as <-; reflexivity). subst k. clear G.
  assert (C : cur_ok w).
  { assert (B : cur_ok (boot fs inp)) by (intros []; cbn; eauto).
    assert (W := wf_boot fs inp). revert B W H. generalize (boot fs inp). clear. revert l.
    induction h as [|o h IH]; intros l w0 B W H.
    - cbn [run] in H. injection H as _ <-. exact B.
    - apply run_cons in H. destruct H as (a & l1 & w1 & A & D & _). refine (IH _ _ _ (wf_step _ _ _ _ _ W A) D).
      intros x. destruct (setter x o) as [b|] eqn:S.
      + apply setter_op in S. subst o.
        assert (KEEP : w1 = tick w0 -> exists p, nth_error (w_ports w1) (cur x w1) = Some p /\ pt_input p = match x with Input => true | _ => false end).
        { intros ->. destruct (B x) as (p & P & Q). exists p. split; auto. }
        destruct b as [k| |]; [| rewrite step_set_other in A by discriminate; injection A as _ <-; auto ..].
        rewrite step_set in A. destruct (nth_error (w_ports w0) k) as [p|] eqn:P; [|injection A as _ <-; auto].
        destruct (Bool.eqb _ _) eqn:EB; [|injection A as _ <-; auto]. injection A as _ <-. apply eqb_prop in EB.
        exists p. split; auto. now destruct x.
      + rewrite (step_cur_other _ _ _ _ _ _ A S). destruct (B x) as (p & P & Q).
        destruct (port_persists _ _ _ _ _ _ _ W A P) as (p' & P' & L). exists p'. split; auto. destruct L as (L & _). congruence. }
  destruct (C x) as (p & P & Q). unfold step.
  destruct x; cbn [right_direction prim get_port tick w_ports cur] in *; rewrite P; rewrite Q; reflexivity.
Qed.
Print Assumptions c89_direction.

(** ** Output without a port goes to the screen, in order, whatever the current
    output port is *)
Lemma sends_screen h : no_nul 2 h -> ~ In (CloseOut (APort 2)) h -> sent_open 2 h = screen h.
Proof.
  unfold screen. induction h as [|o h IH]; intros N C; auto. cbn [sent_open map concat].
  assert (CL : closes_out 2 o = false).
  { destruct (closes_out 2 o) eqn:E; auto. elim C.
    assert (Q : closed_by 2 (o :: h) = true) by (cbn [closed_by]; now rewrite E). now apply closed_by_in in Q. }
  rewrite CL. unfold no_nul in N. cbn [view_out] in N.
  assert (IHH : sent_open 2 h = concat (map to_screen h)).
  { apply IH; [|intros A; apply C; now right]. unfold no_nul. destruct (on_out 2 o); auto. intros t I. apply N. now right. }
  rewrite IHH. f_equal. unfold sends, to_screen. unfold closes_out in CL.
  destruct (on_out 2 o) as [x|] eqn:E.
  - destruct x; cbn [bytes_of]; try reflexivity; [|discriminate CL].
    apply until_nul_id. apply N. now left.
  - destruct (to_stdout o) eqn:T; cbn [andb]; [reflexivity|].
    destruct o; cbn [to_stdout default_output] in *; try reflexivity; rewrite ?T; auto; destruct ch; auto.
Qed.
Theorem c89_default_output : forall c files input h l w, run c (boot files input) h = Ok (l, w) ->
  no_nul 2 h -> ~ In (CloseOut (APort 2)) h ->
  exists s, w_files w (FStd 1) = Some s /\ is_prefix s (screen h) /\
    ((exists h0 a, h = h0 ++ [ForceOutput a] /\ (a = None \/ a = Some ANil \/ a = Some (APort 2))) -> s = screen h).
Proof.
  intros c files input h l w H N C.
  assert (J : writer 2 1 (FStd 1) (boot files input) [] []).
  { constructor; [reflexivity | reflexivity | reflexivity|].
    intros j o A B. unfold boot in A. cbn [w_handles] in A. destruct j as [|[|[|j]]]; cbn [nth_error] in A.
    - discriminate A.
    - reflexivity.
    - injection A as <-. discriminate B.
    - destruct j; discriminate A. }
  assert (OP : forall o, In o h -> opened o <> Some (FStd 1)).
  { intros o _. destruct o as [|[s|]| | | | | | | | | | | | | | | | | | | | |]; discriminate. }
  assert (G := writer_run _ _ _ _ _ _ _ _ _ _ (wf_boot files input) J OP H). cbn [app] in G.
  rewrite (sends_screen h N C) in G. destruct (closed_by 2 h) eqn:CB; [apply closed_by_in in CB; contradiction|].
  destruct G as (i & cont & pend & G & E & F). exists cont. split; [exact (wr_cont _ _ _ _ _ _ G)|].
  split; [now exists pend|]. intros (h0 & a & -> & A).
  rewrite (F _ _ eq_refl) in E; [now rewrite app_nil_r in E|].
  destruct A as [-> | [-> | ->]]; reflexivity.
Qed.
Print Assumptions c89_default_output.
Definition demo_out : list op :=
  [OpenOutStr; SetOut (APort 3); Print (bs "a") None; Print (bs "b") (Some (APort 3)); Newline (Some ANil);
   WriteChar (Some 99%Z) (Some (APort 2)); CurOut; SetOut (APort 1); SetOut (APort 2); GetStr (APort 3); ForceOutput None].
Example c89_demo : exists w, run lazy home demo_out =
  Ok ([RPort 3; RPort 2; RNone; RNone; RNone; RNone; RPort 3; RRaise; RPort 3; RStr (bs "b"); RNone], w) /\
  screen demo_out = [97; 10; 99]%Z /\ w_files w (FStd 1) = Some [97; 10; 99]%Z.
Proof. eexists. split; [vm_compute; reflexivity|]. split; vm_compute; reflexivity. Qed.
Example c89_demo_ok : no_nul 2 demo_out /\ ~ In (CloseOut (APort 2)) demo_out.
Proof.
  split.
  - intros t I. vm_compute in I. destruct I as [I | I]; [discriminate I | destruct I].
  - intros I. repeat (destruct I as [I | I]; [discriminate I|]). destruct I.
Qed.

(** ** What does not hold *)
(* set-current-output-port does not redirect display, write, newline or
   write-char: whatever the current output port is, no port's contents change *)
Theorem c118_redirect_refuted :
  (forall c w o a w', to_stdout o = true -> step c w o = Ok (a, w') -> w_ports w' = w_ports w) /\
  (exists w l, run lazy home [OpenOutStr; SetOut (APort 3); CurOut; Print (bs "lost") None; GetStr (APort 3)] = Ok (l, w) /\
     l = [RPort 3; RPort 2; RPort 3; RNone; RStr []]).
Proof.
  split.
  - intros c w o a w' T H. unfold step in H. destruct o; cbn [to_stdout] in T; try discriminate T; cbn [prim] in H;
    unfold prim_write_char, prim_print, prim_force in H; destruct (opt_arg_cases a0) as [(A & _) | (b & A & B & _)]; try congruence; rewrite A in H;
    repeat inv1; auto;
    match goal with F : _ = Ok ?v |- _ => try apply fput_ports in F; try apply fflush_ports in F; exact F end.
  - do 2 eexists. split; vm_compute; reflexivity.
Qed.
Print Assumptions c118_redirect_refuted.
(* read-char and peek-char without a port never read: they always raise, though
   char-ready? without a port says a character is there *)
Theorem c118_default_input_refuted : forall c w a, no_port a = true ->
  step c w (ReadChar a) = Ok (RRaise, tick w) /\ step c w (PeekChar a) = Ok (RRaise, tick w) /\ step c w (CharReady a) = Ok (RBool true, tick w).
Proof. intros c w [[k| |]|] N; try discriminate N; repeat split. Qed.
Print Assumptions c118_default_input_refuted.
(* closing the initial output port makes every later default output undefined *)
Theorem c118_closed_stdout_refuted : forall c files input a,
  no_port a = true -> (forall t, run c (boot files input) [CloseOut (APort 2); Print t a] = UB) /\
  run c (boot files input) [CloseOut (APort 2); Newline a] = UB /\
  (forall b, run c (boot files input) [CloseOut (APort 2); WriteChar (Some b) a] = UB) /\
  run c (boot files input) [CloseOut (APort 2); ForceOutput a] = UB.
Proof. intros c files input [[k| |]|] N; try discriminate N; (split; [|split; [|split]]); reflexivity. Qed.
Print Assumptions c118_closed_stdout_refuted.
