(** C70-C73: the embedding interface (pscm_api.cc). *)
From Coq Require Import String Lia.
From Verif Require Import Base ParseModel PrintModel EnvModel EnvSpec EvalModel EvalInv EvalSpec EvalMono EvalInv3 EvalInv4 EvalInv5 EvalProofs EvalWitness ApiModel ApiSpec ApiProofs.
Local Open Scope list_scope.

(** ** Examples *)
Definition host0 : api := mkApi st0 None None.
Definition after (o : aout) : api := match o with AOk _ s => s | _ => host0 end.
Definition result (o : aout) : option (option val) := match o with AOk r _ => Some r | _ => None end.
Definition call (s : string) (h : api) : aout := pscm_eval_string prim0 100 (bs s) h.
Lemma fresh0 : fresh st0. Proof. repeat split. Qed.

(** ** C70: the host survives *)
Theorem c70_eval : forall prim init s n x, fresh init -> session prim init s -> host_survives (pscm_eval prim n x s).
Proof.
  intros prim init s n x F S. apply guarded_top; [intros; now apply good_eval|eauto using session_idle|eauto using session_fitted].
Qed.
Print Assumptions c70_eval.
Theorem c70_eval_string : forall prim init s n t, fresh init -> session prim init s -> host_survives (pscm_eval_string prim n t s).
Proof.
  intros prim init s n t F S. apply guarded_top; [intros; now apply good_string_body|eauto using session_idle|eauto using session_fitted].
Qed.
Print Assumptions c70_eval_string.
(* a file without a syntax error *)
Theorem c105_eval_file : forall prim init s n f, fresh init -> session prim init s ->
  (forall t, f = Some t -> parse_all t <> Err) -> host_survives (pscm_eval_file prim n f s).
Proof.
  intros prim init s n f F S NE. unfold pscm_eval_file. destruct f as [t|]; [|exact I].
  specialize (NE t eq_refl). destruct (parse_all t) as [l| | | |]; try exact I; [|congruence].
  destruct (programs l) as [xs|]; [|exact I]. clear NE. generalize (@None val).
  revert s S. induction xs as [|x xs IH]; intros s S acc; cbn [eval_all]; [exact I|].
  pose proof (c70_eval prim init s n x F S) as H. destruct (pscm_eval prim n x s) eqn:E; auto.
  apply IH. eapply ses_eval; eauto.
Qed.
Print Assumptions c105_eval_file.
(* a file with a syntax error: the reader's error is thrown outside of any catch,
   and the call never returns to the host: the process exits with status 1, or,
   if an earlier evaluation left a stale entry on the catch stack, the throw
   follows a dangling jmp_buf *)
Theorem c164_file_syntax_error_refuted : forall prim init s n t, fresh init -> session prim init s -> parse_all t = Err ->
  pscm_eval_file prim n (Some t) s = match d_catch (s_dyn (a_st s)) with [] => AExit s | _ => AUB end.
Proof.
  intros prim init s n t F S E. unfold pscm_eval_file. rewrite E. unfold lift, err, throw.
  destruct (session_idle prim init s F S) as [_ L]. rewrite L.
  destruct (d_catch (s_dyn (a_st s))) as [|[id tag] r]; cbn [find_handler existsb]; [|reflexivity]. destruct s; reflexivity.
Qed.
Print Assumptions c164_file_syntax_error_refuted.
Example c70_ex_exit : exists s, pscm_eval_file prim0 100 (Some (bs "(display 1) (display 2")) host0 = AExit s.
Proof. eexists. vm_compute. reflexivity. Qed.
Example c70_ex1 : result (call "(throw 'oops 1 2)" host0) = Some None.
Proof. vm_compute. reflexivity. Qed.
Example c70_ex2 : result (call "(undefined-function 1)" host0) = Some None.
Proof. vm_compute. reflexivity. Qed.
Example c70_ex3 : session prim0 st0 (after (call "(car 5)" (after (call "(define x 1)" host0)))).
Proof.
  pose proof (ses_init prim0 st0) as H. eapply (ses_string prim0 st0 100 (bs "(define x 1)")) in H; [|vm_compute; reflexivity].
  eapply (ses_string prim0 st0 100 (bs "(car 5)")) in H; [|vm_compute; reflexivity]. vm_compute. vm_compute in H. exact H.
Qed.

(** ** C71: what a call returns *)
Lemma cstr_prefix x : c_prefix x (cstr x).
Proof.
  unfold c_prefix. induction x as [|c x (N & IH)]; cbn [cstr]; [split; auto|].
  destruct (Z.eqb_spec c 0) as [-> |C].
  - split; [intros []|]. right. now exists x.
  - split.
    + intros [E|I]; [congruence|contradiction].
    + destruct IH as [-> |(r & E)]; [now left|]. right. exists r. cbn. now rewrite <- E.
Qed.
Definition args_of (a : val) : list val := match a with VList l _ => l | _ => [] end.
Lemma err_key_ok k : error_key k (err_key k).
Proof. destruct k; cbn; try discriminate. eexists. split; [reflexivity|apply cstr_prefix]. Qed.
Lemma err_msg_ok a : error_message (args_of a) (err_msg a).
Proof.
  destruct a as [| | | | | | |l d| | | | | | |]; cbn; try (split; intros ? X; discriminate X).
  destruct l as [|a [|b l]]; [cbn; split; intros ? X; discriminate X| |].
  - destruct a; cbn; try (split; intros ? X; discriminate X). left. exists s. split; [reflexivity|apply cstr_prefix].
  - destruct a; [..|]; cbn.
    all: try (destruct b; cbn; try (split; intros ? X; discriminate X);
      right; split; [intros ? X; discriminate X|]; eexists; split; [reflexivity|apply cstr_prefix]).
    left. exists s. split; [reflexivity|apply cstr_prefix].
Qed.
Lemma eval_unfold prim init n x s : fresh init -> session prim init s ->
  pscm_eval prim n x s =
    let id := d_next (s_dyn (a_st s)) in
    match eval prim n g_env x (push_catch (VBool true) (a_st s)) with
    | Ret v st' => AOk (Some v) (mkApi (dead id (pop_catch st')) (a_key s) (a_msg s))
    | Thrown j k a st' =>
        if Nat.eqb j id then AOk None (mkApi (dead id (note_catch (d_wind (s_dyn (a_st s))) (pop_catch st'))) (err_key k) (err_msg a))
        else AThrown j k a (mkApi (count_leak (dead id st')) (a_key s) (a_msg s))
    | Jump j v st' => AJump j v (mkApi (count_leak (dead id st')) (a_key s) (a_msg s))
    | Exit st' => AExit (mkApi st' (a_key s) (a_msg s))
    | OAbort => AAbort | OUB => AUB | OFuel => AFuel
    end.
Proof.
  intros F S. pose proof (session_fitted prim init s F S) as L. unfold fitted in L. unfold pscm_eval, guarded.
  destruct (Z.leb_spec 100 (Z.of_nat (length (d_catch (s_dyn (a_st s)))))); [lia|].
  unfold lift, on_st. cbn [a_st a_key a_msg]. destruct (eval _ _ _ _ _); reflexivity.
Qed.
Lemma same_pop id st : same_program st (dead id (pop_catch st)). Proof. repeat split. Qed.
Lemma same_note id w st : same_program st (dead id (note_catch w (pop_catch st))).
Proof. unfold note_catch. destruct (list_eq_dec _ _ _); repeat split. Qed.

Theorem c71_value : forall prim init s x v st', fresh init -> session prim init s ->
  runs prim g_env x (push_catch (VBool true) (a_st s)) (Ret v st') ->
  exists n s', pscm_eval prim n x s = AOk (Some v) s' /\ same_program st' (a_st s') /\ a_key s' = a_key s /\ a_msg s' = a_msg s.
Proof.
  intros prim init s x v st' F S (n & E & _). exists n. rewrite (eval_unfold prim init n x s F S). cbv zeta. rewrite E.
  eexists. split; [reflexivity|]. repeat split.
Qed.
Print Assumptions c71_value.
Theorem c71_uncaught : forall prim init s x key args st', fresh init -> session prim init s ->
  runs prim g_env x (push_catch (VBool true) (a_st s)) (Thrown (d_next (s_dyn (a_st s))) key args st') ->
  exists n s', pscm_eval prim n x s = AOk None s' /\ same_program st' (a_st s') /\ error_key key (a_key s') /\ error_message (args_of args) (a_msg s').
Proof.
  intros prim init s x key args st' F S (n & E & _). exists n. rewrite (eval_unfold prim init n x s F S). cbv zeta. rewrite E, Nat.eqb_refl.
  eexists. split; [reflexivity|]. split; [apply same_note|]. split; [apply err_key_ok|apply err_msg_ok].
Qed.
Print Assumptions c71_uncaught.
(* and conversely, whatever call has returned *)
Theorem c71_result : forall prim init s n x r s', fresh init -> session prim init s -> pscm_eval prim n x s = AOk r s' ->
  exists st', same_program st' (a_st s') /\
  match r with
  | Some v => runs prim g_env x (push_catch (VBool true) (a_st s)) (Ret v st') /\ a_key s' = a_key s /\ a_msg s' = a_msg s
  | None => exists key args, runs prim g_env x (push_catch (VBool true) (a_st s)) (Thrown (d_next (s_dyn (a_st s))) key args st') /\
              error_key key (a_key s') /\ error_message (args_of args) (a_msg s')
  end.
Proof.
  intros prim init s n x r s' F S. rewrite (eval_unfold prim init n x s F S). cbv zeta.
  destruct (eval prim n g_env x _) as [v st'|j k a st'|j v st'|st'| | |] eqn:E; try discriminate.
  - intros [= <- <-]. exists st'. split; [apply same_pop|]. split; [|auto]. exists n. split; [exact E|discriminate].
  - destruct (Nat.eqb_spec j (d_next (s_dyn (a_st s)))) as [-> |]; [|discriminate]. intros [= <- <-].
    exists st'. split; [apply same_note|]. exists k, a. split; [exists n; split; [exact E|discriminate]|]. split; [apply err_key_ok|apply err_msg_ok].
Qed.
Print Assumptions c71_result.
(* the last error is that of the last call that failed, not of the last call *)
Theorem c106_stale_refuted : exists s s' n x v, session prim0 st0 s /\ pscm_eval prim0 n x s = AOk (Some v) s' /\ a_key s' = Some (bs "oops") /\ a_msg s' = Some (bs "why").
Proof.
  pose proof (ses_init prim0 st0) as H. eapply (ses_string prim0 st0 100 (bs "(throw 'oops ""why"")")) in H; [|vm_compute; reflexivity].
  eexists _, _, 100%nat, (VInt 5), (VInt 5). split; [exact H|]. split; [vm_compute; reflexivity|]. split; reflexivity.
Qed.
Print Assumptions c106_stale_refuted.
Example c71_ex1 : let s := after (call "(throw 'oops #f ""why ~A"" 1)" host0) in a_key s = Some (bs "oops") /\ a_msg s = Some (bs "why ~A").
Proof. vm_compute. split; reflexivity. Qed.
Example c71_ex2 : exists st', runs prim0 g_env (expr "(throw 'oops ""why"")") (push_catch (VBool true) (a_st host0)) (Thrown (d_next (s_dyn (a_st host0))) (sym "oops") (mklist [VStr (bs "why")]) st').
Proof. eexists. exists 100%nat. split; [vm_compute; reflexivity|discriminate]. Qed.
Example c71_ex3 : exists st', runs prim0 g_env (expr "(catch 'a (lambda () (throw 'a 1)) (lambda r r))") (push_catch (VBool true) (a_st host0)) (Ret (VList [sym "a"; VInt 1] false) st').
Proof. eexists. exists 100%nat. split; [vm_compute; reflexivity|discriminate]. Qed.

(** ** C72: strings and files *)
Lemma guarded_room body s : (length (d_catch (s_dyn (a_st s))) < 100)%nat ->
  guarded body s =
    let id := d_next (s_dyn (a_st s)) in
    match body (on_st (push_catch (VBool true)) s) with
    | AOk r s' => AOk r (on_st (fun st' => dead id (pop_catch st')) s')
    | AThrown j k a s' =>
        if Nat.eqb j id
        then AOk None (mkApi (dead id (note_catch (d_wind (s_dyn (a_st s))) (pop_catch (a_st s')))) (err_key k) (err_msg a))
        else AThrown j k a (on_st (fun st' => count_leak (dead id st')) s')
    | AJump j v s' => AJump j v (on_st (fun st' => count_leak (dead id st')) s')
    | o => o
    end.
Proof. intro L. unfold guarded. destruct (Z.leb_spec 100 (Z.of_nat (length (d_catch (s_dyn (a_st s)))))); [lia|reflexivity]. Qed.
Lemma push_len st tag : length (d_catch (s_dyn (push_catch tag st))) = S (length (d_catch (s_dyn st))). Proof. reflexivity. Qed.
Lemma err_under st : @err val (push_catch (VBool true) st) = Thrown (d_next (s_dyn st)) (sym "error") (VList [VStr []] false) (push_catch (VBool true) st).
Proof.
  unfold err, throw. change (d_live (s_dyn (push_catch (VBool true) st))) with (d_next (s_dyn st) :: d_live (s_dyn st)).
  change (d_catch (s_dyn (push_catch (VBool true) st))) with ((d_next (s_dyn st), VBool true) :: d_catch (s_dyn st)).
  cbn [find_handler existsb]. rewrite Nat.eqb_refl. reflexivity.
Qed.
(* an error thrown directly under a guard is caught by it *)
Lemma guarded_err s : (length (d_catch (s_dyn (a_st s))) < 100)%nat ->
  guarded (lift err) s = AOk None (mkApi (dead (d_next (s_dyn (a_st s))) (note_catch (d_wind (s_dyn (a_st s))) (pop_catch (push_catch (VBool true) (a_st s)))))
    (Some (bs "error")) (Some [])).
Proof.
  intro L. rewrite (guarded_room _ s L). cbv zeta. unfold lift, on_st. cbn [a_st a_key a_msg]. rewrite err_under, Nat.eqb_refl. reflexivity.
Qed.
(* the datum of the text is evaluated once, in the state of the call (under the
   catch-alls of the interface), and its value returned *)
Theorem c72_string_value : forall prim s t d x, (length (d_catch (s_dyn (a_st s))) < 98)%nat ->
  parse t = Ok d -> program d = Some x ->
  exists st1, same_program (a_st s) st1 /\
  forall v st', runs prim g_env x st1 (Ret v st') ->
    exists n s', pscm_eval_string prim n t s = AOk (Some v) s' /\ same_program st' (a_st s') /\ a_key s' = a_key s /\ a_msg s' = a_msg s.
Proof.
  intros prim s t d x L P D.
  set (s1 := on_st (push_catch (VBool true)) s).
  set (s2 := on_st (fun st' => dead (d_next (s_dyn (a_st s1))) (pop_catch st')) (on_st (push_catch (VBool true)) s1)).
  assert (E1 : pscm_parse t s1 = AOk (Some x) s2).
  { unfold pscm_parse. rewrite guarded_room; [|unfold s1; cbn [on_st a_st]; rewrite push_len; lia]. cbv zeta. unfold read_one. now rewrite P, D. }
  exists (push_catch (VBool true) (a_st s2)). split; [repeat split|].
  intros v st' (n & E & _). exists n. unfold pscm_eval_string. rewrite guarded_room by lia. cbv zeta. fold s1. rewrite E1.
  unfold pscm_eval. rewrite (guarded_room _ s2); [|change (S (length (d_catch (s_dyn (a_st s)))) < 100)%nat; lia].
  cbv zeta. unfold lift at 1. cbn [on_st a_st a_key a_msg]. rewrite E. eexists. split; [reflexivity|]. repeat split.
Qed.
Print Assumptions c72_string_value.
(* what is not exactly one datum is an error, and nothing is evaluated *)
Theorem c72_string_error : forall prim n s t, (length (d_catch (s_dyn (a_st s))) < 99)%nat -> parse t = Err ->
  exists s', pscm_eval_string prim n t s = AOk None s' /\ same_program (a_st s) (a_st s') /\ a_key s' = Some (bs "error").
Proof.
  intros prim n s t L P. unfold pscm_eval_string. rewrite guarded_room by lia. cbv zeta.
  assert (E : forall s, (length (d_catch (s_dyn (a_st s))) < 100)%nat -> pscm_parse t s = guarded (lift err) s).
  { intros u _. unfold pscm_parse, guarded, read_one. now rewrite P. }
  rewrite E by (cbn [on_st a_st]; rewrite push_len; lia).
  rewrite guarded_err by (cbn [on_st a_st]; rewrite push_len; lia). eexists. split; [reflexivity|]. cbn [on_st a_st a_key].
  split; [|reflexivity]. unfold note_catch. destruct (list_eq_dec _ _ _); repeat split.
Qed.
Print Assumptions c72_string_error.
Example c72_ex1 : parse (bs "(+ 1 2) 3") = Err /\ parse (bs "(+ 1") = Err /\ parse (bs "") = Err /\ result (call "1 2" host0) = Some None.
Proof. vm_compute. repeat split. Qed.
Example c72_ex2 : exists d, parse (bs "(+ 1 2) ; three") = Ok d /\ program d = Some (expr "(+ 1 2)") /\ result (call "(+ 1 2) ; three" host0) = Some (Some (VInt 3)).
Proof. eexists. vm_compute. repeat split. Qed.
Lemma all_one_by_one prim n xs : forall acc s r s', eval_all prim n xs acc s = AOk r s' <->
  match xs with [] => r = acc /\ s' = s | _ => one_by_one (fun x s r s' => pscm_eval prim n x s = AOk r s') xs s r s' end.
Proof.
  induction xs as [|x xs IH]; intros acc s r s'; [split; [intros [= <- <-]; auto|intros (-> & ->); reflexivity]|].
  cbn [eval_all]. destruct xs as [|y xs].
  - split.
    + destruct (pscm_eval prim n x s) eqn:E; try discriminate. intros [= <- <-]. now constructor.
    + intro H. inversion H as [|? ? ? ? C|]; subst. rewrite C. reflexivity.
  - split.
    + destruct (pscm_eval prim n x s) eqn:E; try discriminate. intro H. apply IH in H. econstructor; eauto.
    + intro H. inversion H as [| |? ? ? ? ? ? ? ? C D]; subst. rewrite C. now apply IH.
Qed.
Theorem c72_file : forall prim n t l xs s r s', parse_all t = Ok l -> programs l = Some xs ->
  (pscm_eval_file prim n (Some t) s = AOk r s' <-> one_by_one (fun x s r s' => pscm_eval prim n x s = AOk r s') xs s r s').
Proof.
  intros prim n t l xs s r s' P Q. unfold pscm_eval_file. rewrite P, Q, all_one_by_one. destruct xs; [|reflexivity].
  split; [intros (-> & ->); constructor|inversion 1; auto].
Qed.
Print Assumptions c72_file.
(* a failed expression does not stop the ones after it *)
Theorem c72_file_continues : forall prim n x xs s s1, pscm_eval prim n x s = AOk None s1 -> forall y r s',
  one_by_one (fun x s r s' => pscm_eval prim n x s = AOk r s') (y :: xs) s1 r s' ->
  one_by_one (fun x s r s' => pscm_eval prim n x s = AOk r s') (x :: y :: xs) s r s'.
Proof. intros. econstructor; eauto. Qed.
Print Assumptions c72_file_continues.
Theorem c72_file_missing : forall prim n s, pscm_eval_file prim n None s = AOk None s.
Proof. reflexivity. Qed.
Print Assumptions c72_file_missing.
(* the result says nothing about an error that was not in the last expression *)
Example c72_ex_error_hidden : let o := pscm_eval_file prim0 100 (Some (bs "(define x 1) (throw 'oops) (display x) (+ x 1)")) host0 in
  result o = Some (Some (VInt 2)) /\ d_out (s_dyn (a_st (after o))) = [49%Z] /\ a_key (after o) = Some (bs "oops").
Proof. vm_compute. repeat split. Qed.
Example c72_ex_empty : pscm_eval_file prim0 100 (Some (bs " ; nothing")) host0 = AOk None host0.
Proof. vm_compute. reflexivity. Qed.

(** ** C73: reuse without limit *)
(* as long as no throw and no jump has passed over a catch, nothing is used up *)
Definition quiet (init : state) (s : api) : Prop := d_leaked (s_dyn (a_st s)) = d_leaked (s_dyn init).
Section Quiet.
Variable c0 : nat.
Definition aending (o : aout) : ending :=
  match o with AOk _ s => ERet (a_st s) | AThrown j _ _ s => EThrown j (a_st s) | AJump k _ s => EJump k (a_st s) | AExit s => EExit (a_st s) | _ => ENone end.
Definition tidy (body : api -> aout) : Prop := forall s, Qc c0 (a_st s) (aending (body s)).
Lemma tidy_lift m : ok (Qc c0) m -> tidy (lift m).
Proof. intros H s. specialize (H (a_st s)). unfold lift. destruct (m (a_st s)); exact H. Qed.
(* as far as the state goes, a guarded call is a catch whose handler does nothing *)
Lemma tidy_guarded body : tidy body -> tidy (guarded body).
Proof.
  intros H s. unfold guarded.
  set (m := fun st => match body (mkApi st (a_key s) (a_msg s)) with
    | AOk _ s' => Ret VNone (a_st s') | AThrown j k a s' => Thrown j k a (a_st s') | AJump j v s' => Jump j v (a_st s')
    | AExit s' => Exit (a_st s') | AAbort => OAbort | AUB => OUB | AFuel => OFuel end).
  assert (Hm : ok (Qc c0) m).
  { intro st. specialize (H (mkApi st (a_key s) (a_msg s))). unfold m. destruct (body _); exact H. }
  assert (Hh : forall k a, ok (Qc c0) ((fun _ _ : val => @ret val VNone) k a)).
  { intros k a st. apply Qc_same. repeat split; auto. }
  pose proof (Qc_catching c0 1 (VBool true) m _ Hm Hh (a_st s)) as C. unfold catching in C.
  destruct (100 <=? Z.of_nat (length (d_catch (s_dyn (a_st s)))))%Z.
  - unfold lift. destruct (err (a_st s)); exact C.
  - unfold m in C. unfold on_st at 1. destruct (body _) as [r s'|j k a s'|j v s'|s'| | |]; try exact C.
    destruct (Nat.eqb j (d_next (s_dyn (a_st s)))); exact C.
Qed.
Lemma tidy_eval prim n x : tidy (pscm_eval prim n x).
Proof. apply tidy_guarded, tidy_lift. intro st. apply eval_catch. Qed.
Lemma tidy_read t : tidy (read_one t).
Proof.
  intro s. unfold read_one. destruct (parse t); try (intros ?; exact I).
  - destruct (program a); [apply Qc_same; repeat split; auto|intros ?; exact I].
  - apply (tidy_lift err). intros st b. unfold err, throw. destruct (find_handler _ _ _) eqn:F; cbn; auto. split; [auto|]. split; [apply later_refl|].
    split; [intros _; auto|]. intros _. eapply find_handler_in; eauto.
Qed.
Lemma tidy_string prim n t : tidy (pscm_eval_string prim n t).
Proof.
  apply tidy_guarded. intro s. pose proof (tidy_guarded _ (tidy_read t) s) as G. unfold pscm_parse. destruct (guarded _ s) as [[x|] s'| | | | | |]; auto.
  eapply Qc_trans; [exact G|]. apply tidy_eval.
Qed.
Lemma tidy_all prim n xs : forall acc, tidy (eval_all prim n xs acc).
Proof.
  induction xs as [|x xs IH]; intros acc s; cbn [eval_all]; [apply Qc_same; repeat split; auto|].
  pose proof (tidy_eval prim n x s) as G. destruct (pscm_eval prim n x s) as [r s'| | | | | |]; auto.
  eapply Qc_trans; [exact G|]. apply IH.
Qed.
Lemma tidy_file prim n f : tidy (pscm_eval_file prim n f).
Proof.
  intro s. unfold pscm_eval_file. destruct f as [t|]; [|apply Qc_same; repeat split; auto].
  destruct (parse_all t); try (intros ?; exact I).
  - destruct (programs a); [apply tidy_all|intros ?; exact I].
  - apply (tidy_lift err). intros st b. unfold err, throw. destruct (find_handler _ _ _) eqn:F; cbn; auto. split; [auto|]. split; [apply later_refl|].
    split; [intros _; auto|]. intros _. eapply find_handler_in; eauto.
Qed.
End Quiet.
Theorem c73_no_leak : forall prim init s, fresh init -> session prim init s -> quiet init s -> d_catch (s_dyn (a_st s)) = [].
Proof.
  intros prim init s (F1 & F2 & F3) S Qs.
  assert (B (d_leaked (s_dyn init)) (a_st s) /\ (d_leaked (s_dyn (a_st s)) = d_leaked (s_dyn init) -> d_catch (s_dyn (a_st s)) = [])) as [_ H]; [|now apply H].
  clear Qs. induction S as [|n x r s s' _ [b IH] E|n t r s s' _ [b IH] E|n f r s s' _ [b IH] E].
  - split; [|auto]. cbn. split; rewrite ?F1, ?F2; cbn; auto; [intros ? []|intros ? ? []|]. intros _. split; [constructor|intros ? []].
  - pose proof (tidy_eval (d_leaked (s_dyn init)) prim n x s b) as T. rewrite E in T. cbn in T. destruct T as (b' & l & st). split; [auto|].
    intro Z. rewrite st by auto. apply IH. destruct l, b. lia.
  - pose proof (tidy_string (d_leaked (s_dyn init)) prim n t s b) as T. rewrite E in T. cbn in T. destruct T as (b' & l & st). split; [auto|].
    intro Z. rewrite st by auto. apply IH. destruct l, b. lia.
  - pose proof (tidy_file (d_leaked (s_dyn init)) prim n f s b) as T. rewrite E in T. cbn in T. destruct T as (b' & l & st). split; [auto|].
    intro Z. rewrite st by auto. apply IH. destruct l, b. lia.
Qed.
Print Assumptions c73_no_leak.
(* every evaluation that leaves a catch by calling a continuation, or by a throw
   to an outer catch, uses up one of the 100 entries for good; at 99 the interface
   is dead: every string is answered by NULL, whatever it says *)
Theorem c159_dead_refuted : forall prim n t s, length (d_catch (s_dyn (a_st s))) = 99%nat ->
  exists s', pscm_eval_string prim n t s = AOk None s' /\ length (d_catch (s_dyn (a_st s'))) = 99%nat.
Proof.
  intros prim n t s L. unfold pscm_eval_string. rewrite guarded_room by lia. cbv zeta.
  assert (E : pscm_parse t (on_st (push_catch (VBool true)) s) = lift err (on_st (push_catch (VBool true)) s)).
  { unfold pscm_parse, guarded. cbn [on_st a_st]. rewrite push_len, L. reflexivity. }
  rewrite E. unfold lift, on_st. cbn [a_st a_key a_msg]. rewrite err_under, Nat.eqb_refl.
  eexists. split; [reflexivity|]. cbn [a_st].
  change (length (d_catch (s_dyn (note_catch (d_wind (s_dyn (a_st s))) (pop_catch (push_catch (VBool true) (a_st s)))))) = 99%nat). rewrite note_d. exact L.
Qed.
Print Assumptions c159_dead_refuted.
Definition leaky : val := expr "(call/cc (lambda (k) (catch 'a (lambda () (k 1)) (lambda x x))))".
Fixpoint repeat_call (n : nat) (s : api) : api := match n with O => s | S n => repeat_call n (after (pscm_eval prim0 100 leaky s)) end.
Lemma repeat_session n : forall s, session prim0 st0 s -> (forall m, (m < n)%nat -> result (pscm_eval prim0 100 leaky (repeat_call m s)) <> None) ->
  session prim0 st0 (repeat_call n s).
Proof.
  induction n as [|n IH]; intros s HS H; [exact HS|]. cbn [repeat_call].
  pose proof (H 0%nat ltac:(lia)) as H0. change (repeat_call 0 s) with s in H0. destruct (pscm_eval prim0 100 leaky s) as [r s'| | | | | |] eqn:E; try (exfalso; now apply H0).
  apply IH; [eapply ses_eval; eauto|]. intros m L. specialize (H (S m) ltac:(lia)). cbn [repeat_call] in H. now rewrite E in H.
Qed.
Fixpoint all_results (n : nat) (s : api) : list (option (option val)) :=
  match n with O => [] | S n => let o := pscm_eval prim0 100 leaky s in result o :: all_results n (after o) end.
Lemma all_results_nth n : forall s m, (m < n)%nat -> nth_error (all_results n s) m = Some (result (pscm_eval prim0 100 leaky (repeat_call m s))).
Proof.
  induction n as [|n IH]; intros s m L; [lia|]. cbn [all_results]. destruct m as [|m]; [reflexivity|]. cbn [nth_error repeat_call]. apply IH. lia.
Qed.
Theorem c159_reached_refuted : exists s, session prim0 st0 s /\ length (d_catch (s_dyn (a_st s))) = 99%nat /\
  (forall t n, result (pscm_eval_string prim0 n t s) = Some None).
Proof.
  assert (R : all_results 99 host0 = repeat (Some (Some (VInt 1))) 99) by (vm_compute; reflexivity).
  exists (repeat_call 99 host0). split; [|split].
  - apply repeat_session; [apply ses_init|]. intros m L E. pose proof (all_results_nth 99 host0 m L) as N. rewrite R, E in N.
    apply nth_error_In, repeat_spec in N. discriminate.
  - vm_compute. reflexivity.
  - intros t n. destruct (c159_dead_refuted prim0 n t (repeat_call 99 host0)) as (s' & -> & _); [vm_compute; reflexivity|reflexivity].
Qed.
Print Assumptions c159_reached_refuted.
Example c73_ex_quiet : quiet st0 (after (call "(catch 'a (lambda () (throw 'a 1)) (lambda x x))" host0)).
Proof. vm_compute. reflexivity. Qed.
