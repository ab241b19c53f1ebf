(** C79-C81: the interactive loop and scripts (repl.cc, main.cc). *)
From Coq Require Import Lia String.
From Verif Require Import Base NumModel ParseModel ParseSpec PrintModel EnvModel EvalModel EvalWitness ApiModel ApiSpec ApiProofs ApiProperties ReplModel ReplSpec ReplProofs.
Local Open Scope list_scope.

(** ** C79: when an input is taken to be complete *)
(* every complete expression is taken, in a text without #{...}# and without a
   backslash before a blank, a parenthesis or a semicolon *)
Theorem c79_complete : forall s d, tame s -> parse s = Ok d -> is_balanced s = true.
Proof. exact parse_balanced. Qed.
Print Assumptions c79_complete.
(* whatever write prints is taken as soon as its line ends *)
Theorem c79_written : forall pf d, ParseSpec.plain d -> is_balanced (write_datum pf d ++ [10]) = true.
Proof. intros pf d P. unfold is_balanced, write_datum. rewrite (plain_neu pf d P false false) by lia. reflexivity. Qed.
Print Assumptions c79_written.
(* for texts of parentheses and ordinary bytes: exactly the matched ones *)
Theorem c79_parens : forall s, simple_text s -> (is_balanced s = true <-> matched s).
Proof. exact balanced_matched. Qed.
Print Assumptions c79_parens.
(* lines are collected until the text is complete, then handed to the reader as one text *)
Theorem c79_lines : forall ls rest, ls <> [] -> Forall (fun l => (length l <= 4095)%nat) ls ->
  (forall a b, ls = a ++ b -> a <> [] -> b <> [] -> is_balanced (concat a) = false) ->
  is_balanced (concat ls) = true -> has_content (concat ls) ->
  submissions [] (ls ++ rest) = (concat ls :: fst (submissions [] rest), snd (submissions [] rest)).
Proof.
  intros ls rest N F U B C. rewrite (subs_group ls [] rest); auto.
  - destruct (submissions [] rest). reflexivity.
  - destruct C as (c & I & _). cbn [app]. intros E. rewrite E in I. destruct I.
Qed.
Print Assumptions c79_lines.
(* one closing parenthesis too many: nothing typed afterwards is ever evaluated *)
Theorem c160_stuck_refuted : forall p t lines, matched p -> simple_text p -> (length (p ++ 41%Z :: t) <= 4095)%nat ->
  fst (submissions [] ((p ++ 41 :: t) :: lines)) = [].
Proof.
  intros p t lines M H L. cbn [submissions app]. unfold fgets_line. rewrite firstn_all2 by exact L. rewrite stuck by auto. now apply subs_stuck.
Qed.
Print Assumptions c160_stuck_refuted.
(* complete expressions that are not taken: a comment that ends in a backslash, a
   symbol that ends in a backslash, an extended symbol with a parenthesis *)
Theorem c160_rejected_refuted :
  Forall (fun s => (exists d, parse s = Ok d) /\ is_balanced s = false)
    [bs "(+ 1 ; one\" ++ 10 :: bs "2)" ++ [10]; bs "(foo\)" ++ [10]; bs "#{a(b}#" ++ [10]].
Proof. repeat (constructor; [split; [eexists; vm_compute; reflexivity|vm_compute; reflexivity]|]). constructor. Qed.
Print Assumptions c160_rejected_refuted.
(* incomplete expressions that are taken: a string literal over two lines, and a
   quote before a line break *)
Theorem c160_incomplete_refuted :
  Forall (fun s => is_balanced s = true /\ parse s = Err /\ exists t d, parse (s ++ t) = Ok d)
    [34 :: bs "one" ++ [10]; [39; 10]].
Proof.
  constructor; [split; [reflexivity|split; [vm_compute; reflexivity|exists (bs "two" ++ [34]); eexists; vm_compute; reflexivity]]|].
  constructor; [split; [reflexivity|split; [vm_compute; reflexivity|exists (bs "two"); eexists; vm_compute; reflexivity]]|]. constructor.
Qed.
Print Assumptions c160_incomplete_refuted.
(* a line of 4096 bytes or more is cut and something else is evaluated *)
Theorem c160_long_line_refuted : exists line d d', parse line = Ok d /\
  fst (submissions [] [line]) = [firstn 4095 line] /\ parse (firstn 4095 line) = Ok d' /\ d' <> d.
Proof.
  exists (repeat 97 4096 ++ [10]), (RSym (repeat 97 4096)), (RSym (repeat 97 4095)).
  split; [vm_compute; reflexivity|]. split; [vm_compute; reflexivity|]. split; [vm_compute; reflexivity|].
  intro E. apply (f_equal (fun d => match d with RSym m => Z.of_nat (length m) | _ => 0 end)) in E. vm_compute in E. discriminate E.
Qed.
Print Assumptions c160_long_line_refuted.
Example c79_ex1 : let s := bs "(define (f x) ; comment (" ++ 10 :: bs " (string-append ""a)b"" x '#\a))" ++ [10] in
  tame s /\ (exists d, parse s = Ok d) /\ submissions [] [bs "(define (f x) ; comment (" ++ [10]; bs " (string-append ""a)b"" x '#\a))" ++ [10]] = ([s], []).
Proof.
  split; [|split; [eexists; vm_compute; reflexivity|vm_compute; reflexivity]].
  set (s := _ ++ _).
  assert (K : forallb (fun p => let '(c, e) := p in negb ((c =? 35) && (e =? 123)) && negb ((c =? 92) && mem e [9; 10; 11; 12; 13; 32; 40; 41; 59])) (combine s (tl s)) = true) by (vm_compute; reflexivity).
  intros pre c e post E. rewrite E in K. clear E. rewrite forallb_forall in K. specialize (K (c, e)).
  assert (I : In (c, e) (combine (pre ++ c :: e :: post) (tl (pre ++ c :: e :: post)))).
  { clear K. destruct pre as [|x pre]; cbn [app tl combine]; [now left|]. revert x. induction pre as [|y pre IH]; intros x; cbn [app tl combine]; [right; now left|]. right. apply IH. }
  specialize (K I). apply andb_true_iff in K as [K1 K2]. split; [intros ->; intros ->; discriminate K1|].
  intros -> H. apply negb_true_iff in K2. cbn [andb Z.eqb Pos.eqb] in K2. apply not_true_iff_false in K2. apply K2. unfold mem. apply existsb_exists. exists e. split; [exact H|apply Z.eqb_refl].
Qed.
Example c79_ex2 : simple_text (bs "(a (b) c)") /\ matched (bs "(a (b) c)") /\ is_balanced (bs "(a (b)") = false.
Proof.
  assert (S : simple_text (bs "(a (b) c)")) by (intros c I; cbn in I; intuition (subst; discriminate)).
  split; [exact S|]. split; [apply (balanced_matched _ S); reflexivity|reflexivity].
Qed.
Example c79_ex3 : submissions [] [bs "(car x))" ++ [10]; bs "(+ 1 2)" ++ [10]; bs "5" ++ [10]] = ([], bs "(car x))" ++ 10 :: bs "(+ 1 2)" ++ 10 :: bs "5" ++ [10]).
Proof. reflexivity. Qed.

(** ** C80: a session *)
Section Session.
Variable prim : list Z -> list val -> pres.
Lemma answer_app n : forall a b vals s, answer prim n (a ++ b) vals s =
  match answer prim n a vals s with RDone vals' s' => answer prim n b vals' s' | o => o end.
Proof.
  induction a as [|t a IH]; intros b vals s; [reflexivity|]. cbn [app answer].
  destruct (read_one t s) as [[x|] s1| | | | | |]; try reflexivity. destruct (pscm_eval prim n x s1); try reflexivity. apply IH.
Qed.
Lemma read_ok t s d x : parse t = Ok d -> program d = Some x -> read_one t s = AOk (Some x) s.
Proof. intros P Q. unfold read_one. now rewrite P, Q. Qed.
Lemma answer_iff n : forall texts xs vals0 s vals s',
  Forall2 (fun t x => exists d, parse t = Ok d /\ program d = Some x) texts xs ->
  (answer prim n texts vals0 s = RDone vals s' <->
   exists vs, vals = vals0 ++ vs /\ all_run (fun x s r s' => pscm_eval prim n x s = AOk r s') xs s vs s').
Proof.
  intros texts xs vals0 s vals s' F. revert vals0 s. induction F as [|t x texts xs (d & P & Q) F IH]; intros vals0 s; cbn [answer].
  - split; [intros [= <- <-]; exists []; split; [now rewrite app_nil_r|constructor]|]. intros (vs & -> & R). inversion R; subst. now rewrite app_nil_r.
  - rewrite (read_ok t s d x P Q). split.
    + destruct (pscm_eval prim n x s) as [v s1| | | | | |] eqn:E; try discriminate. rewrite IH. intros (vs & -> & R). exists (v :: vs).
      split; [now rewrite <- app_assoc|]. econstructor; eauto.
    + intros (vs & -> & R). inversion R as [|? ? ? v s1 vs' ? E R']; subst. rewrite E. apply IH. exists vs'. split; [now rewrite <- app_assoc|exact R'].
Qed.
End Session.
(* the completed inputs are evaluated once each, in order, and their values shown *)
Theorem c80_in_order : forall prim n lines xs s vals s',
  Forall2 (fun t x => exists d, parse t = Ok d /\ program d = Some x) (fst (submissions [] lines)) xs ->
  (repl prim n lines s = RDone vals s' <-> all_run (fun x s r s' => pscm_eval prim n x s = AOk r s') xs s vals s').
Proof.
  intros prim n lines xs s vals s' F. unfold repl. rewrite (answer_iff prim n _ xs [] s vals s' F). split; [intros (vs & -> & R); exact R|intro R; exists vals; auto].
Qed.
Print Assumptions c80_in_order.
(* an evaluation error, an uncaught throw or a continuation never ends the session *)
Theorem c80_errors_survive : forall prim init n lines s vals o, fresh init -> session prim init s ->
  (forall t, In t (fst (submissions [] lines)) -> parse t <> Err) ->
  repl prim n lines s = RStop vals o -> host_survives o.
Proof.
  intros prim init n lines s vals o F S NE. unfold repl. generalize (@nil (option val)). revert s S.
  induction (fst (submissions [] lines)) as [|t r IH]; intros s S acc; cbn [answer]; [discriminate|].
  assert (NT : parse t <> Err) by (apply NE; now left).
  unfold read_one at 1. destruct (parse t) as [d| | | |]; try congruence; try (intros [= _ <-]; exact I).
  destruct (program d) as [x|]; [|intros [= _ <-]; exact I].
  pose proof (c70_eval prim init s n x F S) as H. destruct (pscm_eval prim n x s) as [v s2| | | | | |] eqn:E; try (intros [= _ <-]; exact H).
  apply IH; [intros t' I'; apply NE; now right|]. eapply ses_eval; eauto.
Qed.
Print Assumptions c80_errors_survive.
(* what has been answered does not depend on what is typed later *)
Theorem c80_history : forall prim n texts later s vals s', answer prim n texts [] s = RDone vals s' ->
  answer prim n (texts ++ later) [] s = answer prim n later vals s'.
Proof. intros prim n texts later s vals s' E. rewrite answer_app. now rewrite E. Qed.
Print Assumptions c80_history.
(* but a syntax error ends the whole process, and what was typed after it is lost *)
Theorem c112_syntax_error_refuted : forall prim init n t rest vals s, fresh init -> session prim init s -> d_catch (s_dyn (a_st s)) = [] ->
  parse t = Err -> answer prim n (t :: rest) vals s = RStop vals (AExit s).
Proof.
  intros prim init n t rest vals s F S C E. cbn [answer]. unfold read_one. rewrite E. unfold lift, err, throw. rewrite C. cbn [find_handler]. now destruct s.
Qed.
Print Assumptions c112_syntax_error_refuted.
(* two expressions on a line, and a line with only a comment, are such errors *)
Theorem c112_two_on_a_line_refuted : forall prim n rest,
  repl prim n ((bs "(display 1) (display 2)" ++ [10]) :: rest) host0 = RStop [] (AExit host0) /\
  repl prim n ((bs "; just a comment" ++ [10]) :: rest) host0 = RStop [] (AExit host0).
Proof.
  intros prim n rest. pose proof fresh0 as F. unfold repl. cbn [submissions].
  replace (is_balanced _) with true by (vm_compute; reflexivity). replace (blank_only _) with false by (vm_compute; reflexivity).
  destruct (submissions [] rest) as [x w]. cbn [fst].
  replace (is_balanced _) with true by (vm_compute; reflexivity). replace (blank_only _) with false by (vm_compute; reflexivity). cbn [fst].
  split; (apply (c112_syntax_error_refuted prim st0); [exact F|exact (ses_init prim st0)|reflexivity|vm_compute; reflexivity]).
Qed.
Print Assumptions c112_two_on_a_line_refuted.
Example c80_ex1 : exists s, repl prim0 100 [bs "(define x 1)" ++ [10]; bs "(car x)" ++ [10]; bs "(+ x" ++ [10]; bs " 1)" ++ [10]; bs "(throw 'oops)" ++ [10]; bs "x" ++ [10]] host0
  = RDone [Some VNone; None; Some (VInt 2); None; Some (VInt 1)] s.
Proof. eexists. vm_compute. reflexivity. Qed.

(** ** C81: scripts *)
Lemma run_forms_iff prim n : forall xs vals0 s vals c s', run_forms prim n xs vals0 s = SDone vals c s' <->
  c = 0 /\ exists vs, vals = vals0 ++ vs /\ all_run (fun x s r s' => pscm_eval prim n x s = AOk r s') xs s vs s'.
Proof.
  induction xs as [|x xs IH]; intros vals0 s vals c s'; cbn [run_forms].
  - split; [intros [= <- <- <-]; split; [reflexivity|]; exists []; split; [now rewrite app_nil_r|constructor]|].
    intros (-> & vs & -> & R). inversion R; subst. now rewrite app_nil_r.
  - split.
    + destruct (pscm_eval prim n x s) as [v s1| | | | | |] eqn:E; try discriminate. rewrite IH. intros (-> & vs & -> & R). split; [reflexivity|].
      exists (v :: vs). split; [now rewrite <- app_assoc|]. econstructor; eauto.
    + intros (-> & vs & -> & R). inversion R as [|? ? ? v s1 vs' ? E R']; subst. rewrite E. apply IH. split; [reflexivity|]. exists vs'. split; [now rewrite <- app_assoc|exact R'].
Qed.
(* all the forms of the file are run, once each and in order, a failed one not
   stopping the others *)
Theorem c81_in_order : forall prim n text d ds xs s vals c s', parse_all text = Ok (d :: ds) -> programs (d :: ds) = Some xs ->
  (do_eval prim n (Some text) s = SDone vals c s' <->
   c = 0 /\ all_run (fun x s r s' => pscm_eval prim n x s = AOk r s') xs s vals s').
Proof.
  intros prim n text d ds xs s vals c s' P Q. unfold do_eval. rewrite P, Q, run_forms_iff.
  split; intros (A & H); (split; [exact A|]); [destruct H as (vs & -> & R); exact R|exists vals; auto].
Qed.
Print Assumptions c81_in_order.
(* no form's failure can end the run early *)
Theorem c81_no_early_end : forall prim init n text s vals o, fresh init -> session prim init s -> parse_all text <> Err ->
  do_eval prim n (Some text) s = SStop vals o -> host_survives o.
Proof.
  intros prim init n text s vals o F S NE. unfold do_eval. destruct (parse_all text) as [[|d ds]| | | |]; try congruence; try (intros [= _ <-]; exact I).
  destruct (programs (d :: ds)) as [xs|]; [|intros [= _ <-]; exact I]. generalize (@nil (option val)). revert s S.
  induction xs as [|x xs IH]; intros s S acc; cbn [run_forms]; [discriminate|].
  pose proof (c70_eval prim init s n x F S) as H. destruct (pscm_eval prim n x s) as [v s2| | | | | |] eqn:E; try (intros [= _ <-]; exact H).
  apply IH. eapply ses_eval; eauto.
Qed.
Print Assumptions c81_no_early_end.
Theorem c81_unreadable : forall prim n s, do_eval prim n None s = SDone [] 1 s.
Proof. reflexivity. Qed.
Print Assumptions c81_unreadable.
(* the exit status does not tell whether forms failed, and an error prints nothing *)
Theorem c113_status_refuted : exists text vals s, do_eval prim0 100 (Some text) host0 = SDone vals 0 s /\
  length vals = 3%nat /\ Forall (fun v => v = None) vals /\ Forall (fun v => printed v = None) vals /\ d_out (s_dyn (a_st s)) = [].
Proof.
  exists (bs "(car 5) (throw 'oops) (undefined-procedure 1)"). eexists. eexists. split; [vm_compute; reflexivity|].
  split; [reflexivity|]. split; [repeat constructor|]. split; [repeat constructor|reflexivity].
Qed.
Print Assumptions c113_status_refuted.
(* a script of comments only is a failure *)
Theorem c113_empty_refuted : forall prim n text s, parse_all text = Ok [] -> do_eval prim n (Some text) s = SDone [] 1 s.
Proof. intros prim n text s E. unfold do_eval. now rewrite E. Qed.
Print Assumptions c113_empty_refuted.
Example c81_ex : exists s, do_eval prim0 100 (Some (bs "(define x 4) (car x) (display x) (+ x 1)")) host0 = SDone [Some VNone; None; Some VNone; Some (VInt 5)] 0 s /\ d_out (s_dyn (a_st s)) = [52].
Proof. eexists. split; vm_compute; reflexivity. Qed.
Example c81_ex2 : parse_all (bs "; nothing here") = Ok []. Proof. reflexivity. Qed.
