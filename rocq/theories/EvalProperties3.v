(** C45-C49: dynamic-wind, continuations, catch and throw.  Vocabulary: EvalSpec. *)
From Coq Require Import String Lia.
From Verif Require Import Base ParseModel PrintModel EnvModel EnvSpec EnvProofs EvalModel EvalMono EvalInv EvalInv2 EvalInv3 EvalSpec EvalProofs
  EvalProofs2 EvalProofs3 EvalProofs4 EvalWitness EvalProperties.
Local Open Scope string_scope.
Local Open Scope list_scope.

Lemma ok_W st : winds_ok st -> W (d_caught (s_dyn st)) st.
Proof. intros (A & B & C & D). split; auto. Qed.
Lemma W_ok c st : W c st -> d_caught (s_dyn st) = c -> winds_ok st.
Proof. intros [G A B C] E. destruct (C E). repeat split; auto. Qed.
Lemma ok_B st : catch_ok st -> B (d_leaked (s_dyn st)) st.
Proof. intros (A & B & C & D). split; auto. Qed.
Lemma B_ok c st : B c st -> d_leaked (s_dyn st) = c -> catch_ok st.
Proof. intros [G A B C] E. destruct (C E). repeat split; auto. Qed.

(** * C45. dynamic-wind *)
(* in, thunk and out are called once each, in this order, in the scope of the
   form; the value is thunk's *)
Theorem c45_order : forall prim e i t o bi pi bt pt bo po st st1 st2 st3 oo, plain e "dynamic-wind" st ->
  runs prim e i st (Ret (closure [] None bi pi) st1) ->
  runs prim e t st1 (Ret (closure [] None bt pt) st2) ->
  runs prim e o st2 (Ret (closure [] None bo po) st3) ->
  (runs prim e (form_ "dynamic-wind" [i; t; o]) st oo <->
   wind_run (closure [] None bi pi) (closure [] None bo po)
     (call_run prim e [] None bi pi []) (call_run prim e [] None bt pt []) (call_run prim e [] None bo po []) st3 oo).
Proof.
  intros prim e i t o bi pi bt pt bo po st st1 st2 st3 oo P H1 H2 H3.
  rewrite (runs_wind prim e i t o st oo P). rewrite <- (do_wind_run prim e bi pi bt pt bo po st3 oo).
  assert (D : forall x s v s1 (k : val -> Beh val), runs prim e x s (Ret v s1) -> ((a <~ runs prim e x ;; k a) s oo <-> k v s1 oo)).
  { intros x s v s1 k H. split.
    - intros [(a & s2 & K1 & K2)|(o1 & K1 & K2)].
      + assert (E : Ret a s2 = Ret v s1) by exact (runs_det prim e x s _ _ K1 H). injection E as E1 E2. subst. exact K2.
      + assert (E : o1 = Ret v s1) by exact (runs_det prim e x s _ _ K1 H). subst. inversion K2.
    - intro K. left. exists v, s1. auto. }
  rewrite (D i _ _ _ _ H1), (D t _ _ _ _ H2), (D o _ _ _ _ H3). reflexivity.
Qed.
Print Assumptions c45_order.
(* Whatever is evaluated - any nesting of dynamic-wind, escapes, catches - the wind
   chain is restored when it returns, unless a throw left a dynamic-wind *)
Theorem c45_chain_restored : forall prim e x st v st', winds_ok st ->
  runs prim e x st (Ret v st') -> no_wind_left st st' -> d_wind (s_dyn st') = d_wind (s_dyn st) /\ winds_ok st'.
Proof.
  intros prim e x st v st' K (n & E & _) N. pose proof (eval_wind (d_caught (s_dyn st)) prim n e x st (ok_W st K)) as Q.
  rewrite E in Q. cbn in Q. destruct Q as (w & a & q). split; [auto|]. eapply W_ok; eauto.
Qed.
Print Assumptions c45_chain_restored.
Theorem c45_start : winds_ok st0.
Proof. repeat split; cbn; auto; try discriminate; intros k v []. Qed.
Print Assumptions c45_start.
(* nested uses, an escape, and a throw caught inside an extent *)
Definition ex45 : string :=
  "(dynamic-wind (lambda () (display 1)) (lambda () (dynamic-wind (lambda () (display 2)) (lambda () (catch 'a (lambda () (throw 'a)) (lambda (k . r) (call/cc (lambda (k) (k 'v)))))) (lambda () (display 3)))) (lambda () (display 4)))".
Example c45_ex : go ex45 = Some (sym "v", bs "1234"). Proof. vm_compute. reflexivity. Qed.
Example c45_ex_hyp : runs prim0 g_env (expr ex45) st0 (Ret (sym "v") (final ex45)) /\ no_wind_left st0 (final ex45).
Proof. split; [exists 200%nat; split; [vm_compute; reflexivity|discriminate]|vm_compute; reflexivity]. Qed.
Example c45_ex_order : exists st1 st2 st3,
  plain g_env "dynamic-wind" st0 /\
  runs prim0 g_env (expr "(lambda () (display 1))") st0 (Ret (closure [] None [expr "(display 1)"] g_env) st1) /\
  runs prim0 g_env (expr "(lambda () 'x)") st1 (Ret (closure [] None [expr "'x"] g_env) st2) /\
  runs prim0 g_env (expr "(lambda () (display 2))") st2 (Ret (closure [] None [expr "(display 2)"] g_env) st3).
Proof. exists st0, st0, st0. split; [apply plain0; reflexivity|]. repeat split; run_it. Qed.
(* A throw that leaves a dynamic-wind does not run the out guard and leaves the
   chain as it was at the throw. *)
Example c45_throw : go "(catch 'a (lambda () (dynamic-wind (lambda () (display 1)) (lambda () (throw 'a 0)) (lambda () (display 2)))) (lambda (k . r) k))"
  = Some (sym "a", bs "1"). Proof. vm_compute. reflexivity. Qed.
Example c45_throw_chain : d_wind (s_dyn (final "(catch 'a (lambda () (dynamic-wind (lambda () (display 1)) (lambda () (throw 'a 0)) (lambda () (display 2)))) (lambda (k . r) k))")) = [1%nat].
Proof. vm_compute. reflexivity. Qed.

(** * C46. Continuation jumps.  Missing: jumping to a call/cc call that has
    returned is not modelled. *)
(* call/cc hands its receiver a continuation that has captured the chain *)
Theorem c46_capture : forall prim e x f st st1 o, plain e "call/cc" st -> runs prim e x st (Ret f st1) ->
  let k := d_next (s_dyn st1) in
  runs prim e (form_ "call/cc" [x]) st o ->
  exists st2 o2, chain_of k (d_conts (s_dyn st2)) = Some (d_wind (s_dyn st1)) /\ d_wind (s_dyn st2) = d_wind (s_dyn st1) /\
    runs prim e (VList [f; VCont k (s_cur st1)] false) st2 o2 /\
    match o2 with
    | Ret v st' => o = Ret v (dead k st')
    | Jump j v st' => if Nat.eqb j k then o = Ret v (set_current (dead k st') (s_cur st1)) else o = Jump j v (dead k st')
    | Thrown j key a st' => o = Thrown j key a (dead k st')
    | o2 => o = o2
    end.
Proof.
  intros prim e x f st st1 o P H k R. apply (runs_special prim e "call/cc" FCallcc [x] st o P eq_refl) in R.
  destruct R as (n & R & N). cbn [special] in R. destruct H as (m & H & _).
  pose proof (mono_eval prim e x m (Nat.max m n) ltac:(lia) st) as [F|F]; [congruence|].
  pose proof (mono_eval prim e x n (Nat.max m n) ltac:(lia) st) as [G|G].
  { unfold ebind in R. rewrite G in R. congruence. }
  unfold ebind in R. replace (eval prim n e x st) with (Ret f st1) in R by congruence. unfold with_cont in R. fold k in R.
  exists (push_cont st1). set (o2 := eval prim n e (VList [f; VCont k (s_cur st1)] false) (push_cont st1)) in R.
  exists o2. split; [cbn; now rewrite Nat.eqb_refl|]. split; [reflexivity|]. split.
  { exists n. split; [reflexivity|]. intro X. rewrite X in R. congruence. }
  clearbody o2. destruct o2; auto. destruct (Nat.eqb k0 k); auto.
Qed.
Print Assumptions c46_capture.
(* an evaluation that ends in a jump to k has made the wind chain what k captured *)
Theorem c46_chain_at_target : forall prim e x st k v st', winds_ok st ->
  runs prim e x st (Jump k v st') -> no_wind_left st st' ->
  chain_of k (d_conts (s_dyn st')) = Some (d_wind (s_dyn st')) /\ winds_ok st'.
Proof.
  intros prim e x st k v st' K (n & E & _) N. pose proof (eval_wind (d_caught (s_dyn st)) prim n e x st (ok_W st K)) as Q.
  rewrite E in Q. cbn in Q. destruct Q as (w & a & q). split; [auto|]. eapply W_ok; eauto.
Qed.
Print Assumptions c46_chain_at_target.
(* what a jump does: [change_extent] *)
Theorem c46_jump : forall prim e k m x st v st1 w o, runs prim e x st (Ret v st1) -> winds_ok st1 ->
  chain_of k (d_conts (s_dyn st1)) = Some w ->
  (runs prim e (VList [VCont k m; x] false) st o <-> (_ <~ change_extent prim w ;; land k v) st1 o).
Proof.
  intros prim e k m x st v st1 w o R (A & B & C & D) E. rewrite (runs_jump prim e k m x st v st1 o R). apply jump_ok; eauto.
Qed.
Print Assumptions c46_jump.
Example c46_ex : go "(dynamic-wind (lambda () (display 1)) (lambda () (call/cc (lambda (k) (dynamic-wind (lambda () (display 2)) (lambda () (k 'x)) (lambda () (display 3)))))) (lambda () (display 4)))"
  = Some (sym "x", bs "124314"). Proof. vm_compute. reflexivity. Qed.
(* a state reached inside two extents, with a continuation captured outside both *)
Definition inside : state := set_wind [2; 1]%nat (push_wind (closure [] None [VInt 3] g_env) (closure [] None [expr "(display 9)"] g_env)
  (push_wind (closure [] None [VInt 3] g_env) (closure [] None [expr "(display 8)"] g_env) (push_cont st0))).
Example c46_ex_hyp : winds_ok inside /\ chain_of 0 (d_conts (s_dyn inside)) = Some [] /\ runs prim0 g_env (VInt 5) inside (Ret (VInt 5) inside).
Proof.
  split; [|split; [reflexivity|run_it]]. repeat split.
  - intros k v H. repeat destruct H as [[= <- <-]|H]; try destruct H; cbn; lia.
  - intros k v H. repeat destruct H as [[= <- <-]|H]; try destruct H; cbn; lia.
  - cbn. intros k w. destruct k as [|[|k]]; [intros [= <-]; exact I|discriminate..].
Qed.

(** * C47. Only the extents left or entered *)
(* It holds when nothing is shared and at most one extent is left, and when the
   chains are the same (nothing runs). *)
Theorem c47_one_extent_left : forall prim e k m x st v st1 w o, runs prim e x st (Ret v st1) -> winds_ok st1 ->
  chain_of k (d_conts (s_dyn st1)) = Some w -> (length (d_wind (s_dyn st1)) <= 1)%nat ->
  (forall i, In i (d_wind (s_dyn st1)) -> ~ In i w) ->
  (runs prim e (VList [VCont k m; x] false) st o <->
   (_ <~ change_promised prim [] (d_wind (s_dyn st1)) w ;; land k v) st1 o).
Proof.
  intros prim e k m x st v st1 w o R K E L D. rewrite (c46_jump prim e k m x st v st1 w o R K E).
  assert (Q : forall o, change_extent prim w st1 o <-> change_promised prim [] (d_wind (s_dyn st1)) w st1 o).
  { intro o1. unfold change_extent, change_promised. destruct (list_eq_dec Nat.eq_dec (d_wind (s_dyn st1)) w) as [X|X].
    - destruct w as [|i w]; [|exfalso; apply (D i); [rewrite X|]; left; reflexivity]. rewrite X. cbn [rev each_run].
      split; intro H.
      + apply (proj2 (andthen_returns _ _ _ _)). apply (proj2 (andthen_effect _ _ _ _)). rewrite H. unfold returns. do 2 f_equal.
        unfold set_wind, on_dyn, set_dyn. rewrite <- X. destruct st1 as [f1 m1 c1 p1 []]. reflexivity.
      + apply (proj1 (andthen_returns _ _ _ _)) in H. apply (proj1 (andthen_effect _ _ _ _)) in H. rewrite H. unfold returns. do 2 f_equal.
        unfold set_wind, on_dyn, set_dyn. rewrite <- X. destruct st1 as [f1 m1 c1 p1 []]. reflexivity.
    - replace (rev (d_wind (s_dyn st1))) with (d_wind (s_dyn st1)); [reflexivity|].
      destruct (d_wind (s_dyn st1)) as [|i [|j l]]; cbn in *; auto; lia. }
  split; (intros [(u & s & H1 & H2)|(o1 & H1 & H2)]; [left; exists u, s|right; exists o1]; (split; [apply Q; exact H1|auto])).
Qed.
Print Assumptions c47_one_extent_left.
Theorem c47_same_extents : forall prim e k m x st v st1 o, runs prim e x st (Ret v st1) -> winds_ok st1 ->
  chain_of k (d_conts (s_dyn st1)) = Some (d_wind (s_dyn st1)) ->
  (runs prim e (VList [VCont k m; x] false) st o <-> land k v st1 o).
Proof.
  intros prim e k m x st v st1 o R K E. rewrite (c46_jump prim e k m x st v st1 _ o R K E).
  assert (Q : forall o, change_extent prim (d_wind (s_dyn st1)) st1 o <-> returns tt st1 o).
  { intro o1. unfold change_extent. destruct (list_eq_dec _ _ _); [reflexivity|contradiction]. }
  split.
  - intros [(u & s & H1 & H2)|(o1 & H1 & H2)]; apply Q in H1; unfold returns in H1; [injection H1 as -> ->; exact H2|subst; inversion H2].
  - intro H. left. exists tt, st1. split; [apply Q; reflexivity|exact H].
Qed.
Print Assumptions c47_same_extents.
(* In general the guards of the shared extents run too, and the out guards run
   outermost first. *)
Theorem c149_shared_guards_refuted : forall prim e k m x st v st1 shared a b o, runs prim e x st (Ret v st1) -> winds_ok st1 ->
  d_wind (s_dyn st1) = a ++ shared -> chain_of k (d_conts (s_dyn st1)) = Some (b ++ shared) -> a <> b ->
  (runs prim e (VList [VCont k m; x] false) st o <->
   (_ <~ each_run (out_guard prim) (rev shared) ;;
    _ <~ each_run (out_guard prim) (rev a) ;;
    _ <~ effect (set_wind []) ;;
    _ <~ each_run (in_guard prim) (rev shared) ;;
    _ <~ each_run (in_guard prim) (rev b) ;;
    land k v) st1 o).
Proof.
  intros prim e k m x st v st1 shared a b o R K S E N. rewrite (c46_jump prim e k m x st v st1 _ o R K E).
  assert (Q : forall o, change_extent prim (b ++ shared) st1 o <->
    (_ <~ each_run (out_guard prim) (rev shared) ;; _ <~ each_run (out_guard prim) (rev a) ;; _ <~ effect (set_wind []) ;;
     _ <~ each_run (in_guard prim) (rev shared) ;; each_run (in_guard prim) (rev b)) st1 o).
  { intro o1. unfold change_extent. rewrite S. destruct (list_eq_dec Nat.eq_dec (a ++ shared) (b ++ shared)) as [X|X].
    { exfalso. apply N. now apply app_inv_tail in X. }
    rewrite !rev_app_distr. etransitivity; [refine (andthen_cong _ _ _ _ (each_app _ _ _) (fun _ => andthen_cong _ _ _ _ _ (fun _ => each_app _ _ _)) st1 o1); reflexivity|].
    etransitivity; [apply andthen_assoc|]. reflexivity. }
  transitivity ((_ <~ (_ <~ each_run (out_guard prim) (rev shared) ;; _ <~ each_run (out_guard prim) (rev a) ;; _ <~ effect (set_wind []) ;;
     _ <~ each_run (in_guard prim) (rev shared) ;; each_run (in_guard prim) (rev b)) ;; land k v) st1 o).
  - split; (intros [(u & s & H1 & H2)|(o1 & H1 & H2)]; [left; exists u, s|right; exists o1]; (split; [apply Q; exact H1|auto])).
  - etransitivity; [apply andthen_assoc|]. refine (andthen_cong _ _ _ _ _ _ st1 o); [reflexivity|]. intros _.
    rewrite andthen_assoc. apply andthen_cong; [reflexivity|]. intros _.
    rewrite andthen_assoc. apply andthen_cong; [reflexivity|]. intros _.
    rewrite andthen_assoc. apply andthen_cong; reflexivity.
Qed.
Print Assumptions c149_shared_guards_refuted.
(* R5RS: 12 then 3 when leaving, then 4; the shared extent is left and entered again *)
Example c47_ex : go "(dynamic-wind (lambda () (display 1)) (lambda () (call/cc (lambda (k) (dynamic-wind (lambda () (display 2)) (lambda () (k 'x)) (lambda () (display 3)))))) (lambda () (display 4)))"
  = Some (sym "x", bs "124314").
Proof. vm_compute. reflexivity. Qed.

(** * C48. throw *)
(* With coherent catch bookkeeping, throw goes to the innermost matching catch,
   with the key and the list of its arguments; with none the process exits. *)
Theorem c48_innermost : forall prim e args d st key vs st1 o, args_run prim e args st (Ret (VSym key :: vs) st1) -> catch_ok st1 ->
  (runs prim e (VList (VFunc (bs "throw") (-2) :: args) d) st o <->
   (exists id, selected (d_catch (s_dyn st1)) (VSym key) id /\ o = Thrown id (VSym key) (mklist vs) st1) \/
   ((forall id, ~ selected (d_catch (s_dyn st1)) (VSym key) id) /\ o = Exit st1)).
Proof.
  intros prim e args d st key vs st1 o H (A & B & C & D). rewrite (runs_throw prim e d args st key vs st1 o H).
  pose proof (find_selected prim (d_live (s_dyn st1)) (d_catch (s_dyn st1)) (VSym key) D C) as F. unfold throw.
  destruct (find_handler _ _ _) as [id| |]; [|split|contradiction].
  - split; [intros ->; left; eauto|]. intros [(j & S & ->)|(N & _)]; [|exfalso; eapply N; eauto].
    assert (j = id) as -> ; [|reflexivity].
    destruct F as (a1 & t1 & b1 & E1 & M1 & N1), S as (a2 & t2 & b2 & E2 & M2 & N2). rewrite E1 in E2.
    destruct (Nat.lt_trichotomy (length a1) (length a2)) as [L|[L|L]].
    + exfalso. apply (N2 id t1); auto. apply (f_equal (fun l => nth_error l (length a1))) in E2.
      rewrite nth_error_app2, Nat.sub_diag in E2 by lia. cbn in E2. rewrite nth_error_app1 in E2 by lia. symmetry in E2. eapply nth_error_In; eauto.
    + assert (X := f_equal (fun l => nth_error l (length a1)) E2). cbn beta in X.
      rewrite nth_error_app2, Nat.sub_diag, L, nth_error_app2, Nat.sub_diag in X by lia. cbn in X. congruence.
    + exfalso. apply (N1 j t2); auto. apply (f_equal (fun l => nth_error l (length a2))) in E2.
      rewrite nth_error_app1 in E2 by lia. rewrite nth_error_app2, Nat.sub_diag in E2 by lia. cbn in E2. eapply nth_error_In; eauto.
  - intros ->. right. auto.
  - intros [(j & S & ->)|(_ & ->)]; [exfalso; eapply F; eauto|reflexivity].
Qed.
Print Assumptions c48_innermost.
(* the handler is called on the key and the arguments, outside the catch; what it
   does is what the catch form does *)
Theorem c48_handler : forall prim e args d st tag bt pt xs rest bh ph st1 key v vs st2 o,
  args_run prim e args st (Ret [tag; closure [] None bt pt; closure xs rest bh ph] st1) -> catch_tag tag ->
  (length (d_catch (s_dyn st1)) < 100)%nat ->
  let id := d_next (s_dyn st1) in
  call_run prim pt [] None bt pt [] (push_catch tag st1) (Thrown id key (mklist (v :: vs)) st2) ->
  call_vals prim xs rest bh ph (key :: v :: vs) (note_catch (d_wind (s_dyn st1)) (pop_catch st2)) o -> not_to id o ->
  runs prim e (VList (VFunc (bs "catch") 3 :: args) d) st (leave id o).
Proof. intros prim e args d st tag bt pt xs rest bh ph st1 key v vs st2 o H T L id B HH NT. eapply catch_handles; eauto. Qed.
Print Assumptions c48_handler.
Theorem c48_no_throw : forall prim e args d st tag bt pt h st1 v st2, args_run prim e args st (Ret [tag; closure [] None bt pt; h] st1) -> catch_tag tag ->
  match h with VProc _ _ _ _ => True | _ => False end -> (length (d_catch (s_dyn st1)) < 100)%nat ->
  call_run prim pt [] None bt pt [] (push_catch tag st1) (Ret v st2) ->
  runs prim e (VList (VFunc (bs "catch") 3 :: args) d) st (Ret v (dead (d_next (s_dyn st1)) (pop_catch st2))).
Proof. intros. eapply catch_returns; eauto. Qed.
Print Assumptions c48_no_throw.
(* A throw without arguments hands the handler a second argument: the empty list. *)
Theorem c122_no_arguments_refuted : forall prim e args d st tag bt pt xs rest bh ph st1 key st2 o,
  args_run prim e args st (Ret [tag; closure [] None bt pt; closure xs rest bh ph] st1) -> catch_tag tag ->
  (length (d_catch (s_dyn st1)) < 100)%nat ->
  let id := d_next (s_dyn st1) in
  call_run prim pt [] None bt pt [] (push_catch tag st1) (Thrown id key (mklist []) st2) ->
  call_vals prim xs rest bh ph [key; VNil] (note_catch (d_wind (s_dyn st1)) (pop_catch st2)) o -> not_to id o ->
  runs prim e (VList (VFunc (bs "catch") 3 :: args) d) st (leave id o).
Proof. intros prim e args d st tag bt pt xs rest bh ph st1 key st2 o H T L id B HH NT. eapply catch_handles; eauto. Qed.
Print Assumptions c122_no_arguments_refuted.
Example c48_ex1 : go "(catch #t (lambda () (catch 'a (lambda () (catch 'b (lambda () (throw 'a 1 2)) (lambda r 'wrong))) (lambda r r))) (lambda r 'wrong))"
  = Some (VList [sym "a"; VInt 1; VInt 2] false, []).
Proof. vm_compute. reflexivity. Qed.
Example c48_ex2 : go "(catch 'a (lambda () (throw 'a)) (lambda r r))" = Some (VList [sym "a"; VNil] false, []).
Proof. vm_compute. reflexivity. Qed.
Example c48_ex_hyp : catch_ok (push_catch (VBool true) (push_catch (sym "a") st0)) /\
  args_run prim0 g_env [expr "'a"; VInt 1] (push_catch (VBool true) (push_catch (sym "a") st0))
    (Ret [sym "a"; VInt 1] (push_catch (VBool true) (push_catch (sym "a") st0))) /\
  selected (d_catch (s_dyn (push_catch (VBool true) (push_catch (sym "a") st0)))) (sym "a") 1.
Proof.
  split; [|split].
  - repeat split; cbn.
    + intros i H. repeat destruct H as [<- |H]; try destruct H; lia.
    + intros k v H. repeat destruct H as [[= <- <-]|H]; try destruct H; lia.
    + repeat constructor; cbn; intuition lia.
    + auto.
  - cbn [args_run]. left. eexists. eexists. split; [run_it|]. left. eexists. eexists. split; [|reflexivity].
    left. eexists. eexists. split; [run_it|]. left. eexists. eexists. split; reflexivity.
  - exists [], (VBool true), [(0%nat, sym "a")]. repeat split. intros j t [].
Qed.

(** * C49. The catch stack *)
Theorem c49_catch_stack_restored : forall prim e x st v st', catch_ok st -> runs prim e x st (Ret v st') -> no_catch_passed st st' ->
  d_catch (s_dyn st') = d_catch (s_dyn st) /\ catch_ok st'.
Proof.
  intros prim e x st v st' K (n & E & _) N. pose proof (eval_catch (d_leaked (s_dyn st)) prim n e x st (ok_B st K)) as Q.
  rewrite E in Q. cbn in Q. destruct Q as (b & l & q). split; [now apply q|]. eapply B_ok; eauto.
Qed.
Print Assumptions c49_catch_stack_restored.
Theorem c49_start : catch_ok st0.
Proof. repeat split; cbn; try constructor; intros; try contradiction. intros k v []. Qed.
Print Assumptions c49_start.
Definition ex49 : string := "(catch 'a (lambda () (catch 'b (lambda () (throw 'b 1)) (lambda r (throw 'a 2)))) (lambda r 'done))".
Example c49_ex : runs prim0 g_env (expr ex49) st0 (Ret (sym "done") (final ex49)) /\ no_catch_passed st0 (final ex49).
Proof. split; [exists 200%nat; split; [vm_compute; reflexivity|discriminate]|vm_compute; reflexivity]. Qed.
(* A throw that passes over a catch leaves that catch's entry on the stack: the
   frame of the entry no longer exists. *)
Theorem c150_entry_stays_refuted : forall prim e args d st tag bt pt h st1 j key a st2,
  args_run prim e args st (Ret [tag; closure [] None bt pt; h] st1) -> catch_tag tag ->
  match h with VProc _ _ _ _ => True | _ => False end -> (length (d_catch (s_dyn st1)) < 100)%nat ->
  let id := d_next (s_dyn st1) in
  catch_ok st1 -> no_catch_passed st1 st2 ->
  call_run prim pt [] None bt pt [] (push_catch tag st1) (Thrown j key a st2) -> j <> id ->
  exists st', runs prim e (VList (VFunc (bs "catch") 3 :: args) d) st (Thrown j key a st') /\
    d_catch (s_dyn st') = (id, tag) :: d_catch (s_dyn st1) /\ ~ In id (d_live (s_dyn st')).
Proof.
  intros prim e args d st tag bt pt h st1 j key a st2 H T P L id K NP B N.
  exists (count_leak (dead id st2)). split; [eapply catch_passed; eauto|]. split.
  - assert (R : runs prim pt (VList [closure [] None bt pt] false) (push_catch tag st1) (Thrown j key a st2)).
    { apply (runs_call prim pt [] None bt pt [] false (or_introl eq_refl)). exact B. }
    destruct R as (n & R & _). destruct K as (K1 & K2 & K3 & K4).
    assert (KP : catch_ok (push_catch tag st1)).
    { repeat split; cbn.
      - intros i [<- |I]; [lia|]. specialize (K1 i I). lia.
      - now apply below_push.
      - constructor; auto. intro I. apply in_map_iff in I as ((i & t) & X & I). cbn in X. subst. apply K2 in I. lia.
      - intros i [<- |I]; auto. }
    pose proof (eval_catch (d_leaked (s_dyn (push_catch tag st1))) prim n pt (VList [closure [] None bt pt] false) _ (ok_B _ KP)) as Q. rewrite R in Q. cbn in Q.
    destruct Q as (_ & _ & q & _). apply q. exact NP.
  - cbn. intro I. apply in_remove_iff in I as [_ I]. now apply I.
Qed.
Print Assumptions c150_entry_stays_refuted.
(* A later throw that meets such an entry reads a dead stack frame. *)
Theorem c150_dangling_refuted : forall prim e args d st key vs st1 id tag r, args_run prim e args st (Ret (VSym key :: vs) st1) ->
  d_catch (s_dyn st1) = (id, tag) :: r -> ~ In id (d_live (s_dyn st1)) ->
  runs prim e (VList (VFunc (bs "throw") (-2) :: args) d) st OUB.
Proof.
  intros prim e args d st key vs st1 id tag r H E N. apply (runs_throw prim e d args st key vs st1 OUB H). unfold throw. rewrite E. cbn [find_handler].
  replace (existsb (Nat.eqb id) (d_live (s_dyn st1))) with false; [reflexivity|].
  symmetry. apply not_true_is_false. intro X. apply existsb_exists in X as (i & I & X). apply Nat.eqb_eq in X. subst. contradiction.
Qed.
Print Assumptions c150_dangling_refuted.
Definition ex49b : string := "(catch 'a (lambda () (catch 'b (lambda () (throw 'a 1)) (lambda r 'inner))) (lambda r 'outer))".
Example c49_ex_stale : go ex49b = Some (sym "outer", []) /\ d_catch (s_dyn (final ex49b)) = [(0%nat, sym "a")].
Proof. vm_compute. split; reflexivity. Qed.
Example c49_ex_ub : run_prog 200 (prog (ex49b ++ "(catch 'c (lambda () (throw 'd 1)) (lambda r r))")) st0 = OUB.
Proof. vm_compute. reflexivity. Qed.
