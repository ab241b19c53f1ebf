(** C186, C187: evaluation and the list nodes of programs. *)
From Coq Require Import String Lia.
From Verif Require Import Base ParseModel PrintModel EnvModel EvalModel EvalWitness CellModel CellSpec CellProofs CellProofs2 CellProofs4 CellProofs5 CellProofs6 CellProofs7 CellWitness.
Local Open Scope string_scope.
Local Open Scope Z_scope.
Local Open Scope list_scope.

Lemma rep_drop X h : (forall x v, rep X h x v -> rep [] h x v) /\ (forall a vs d, reps X h a vs d -> reps [] h a vs d).
Proof. apply (rep_reps_ind X h (fun x v _ => rep [] h x v) (fun a vs d _ => reps [] h a vs d)); intros; econstructor; eauto. Qed.
Lemma state_drop X s st : same_state X s st -> same_state [] s st.
Proof.
  intros [A B C D E]. split; auto.
  - revert A. apply Forall2_imp. apply alist_mono. apply rep_drop.
  - revert B. apply Forall2_imp. intros m k [M U]. split; [revert M; apply alist_mono; apply rep_drop|exact U].
  - revert E. apply Forall2_imp. intros p q (P1 & P2 & P3). split; [now apply (rep_drop X)|]. split; [exact P2|]. destruct (cp_val p), (pr_val q); auto. now apply (rep_drop X).
Qed.
Lemma start cprim prim n e x v s st : prims_agree cprim prim -> same_state [] s st -> rep [] (cs_cells s) x v ->
  sim rep None [] (cs_cells s) (ceval cprim n e false x s) (eval prim n e v st).
Proof. intros PA S0 R. apply ev0; auto; [now apply eval_ok|intros a []]. Qed.

(** ** C186 *)
(* A run over list nodes that wrote to no node but its own gives the value that EvalModel gives
   for the expression as a tree, the same variables, modules and output, and changes no node
   that was there before. *)
Theorem c186_refines : forall cprim prim, prims_agree cprim prim -> forall n e x v s st r s',
  same_state [] s st -> rep [] (cs_cells s) x v -> ceval cprim n e false x s = (CRet r s', []) ->
  exists w st', eval prim n e v st = Ret w st' /\ rep [] (cs_cells s') r w /\ same_state [] s' st' /\ unchanged (cs_cells s) (cs_cells s').
Proof.
  intros cprim prim PA n e x v s st r s' S0 R H. pose proof (start cprim prim n e x v s st PA S0 R) as W. rewrite H in W. specialize (W eq_refl).
  destruct W as (X' & w & st' & E & P & S1 & RW). exists w, st'. split; [exact E|]. split; [now apply (rep_drop X')|]. split; [now apply (state_drop X')|].
  intros a c N. apply (po_same _ _ _ _ _ P); [discriminate|exact N].
Qed.
Print Assumptions c186_refines.
(* ... an error where EvalModel has one, in the same state *)
Theorem c186_errors : forall cprim prim, prims_agree cprim prim -> forall n e x v s st s',
  same_state [] s st -> rep [] (cs_cells s) x v ->
  (ceval cprim n e false x s = (CErr s', []) -> exists st', eval prim n e v st = err st' /\ same_state [] s' st' /\ unchanged (cs_cells s) (cs_cells s')) /\
  (forall f, ceval cprim n e false x s = (CWrong f s', []) ->
     exists st' fv, eval prim n e v st = wrong_args fv st' /\ rep [] (cs_cells s') f fv /\ same_state [] s' st' /\ unchanged (cs_cells s) (cs_cells s')) /\
  (ceval cprim n e false x s = (CAbort, []) -> eval prim n e v st = OAbort) /\
  (ceval cprim n e false x s = (CUB, []) -> eval prim n e v st = OUB).
Proof.
  intros cprim prim PA n e x v s st s' S0 R. pose proof (start cprim prim n e x v s st PA S0 R) as W.
  split; [|split; [|split]].
  - intro H. rewrite H in W. destruct (W eq_refl) as (X' & st' & E & P & S1). exists st'. split; [exact E|]. split; [now apply (state_drop X')|].
    intros a c N. apply (po_same _ _ _ _ _ P); [discriminate|exact N].
  - intros f H. rewrite H in W. destruct (W eq_refl) as (X' & st' & fv & E & P & S1 & RF). exists st', fv. split; [exact E|]. split; [now apply (rep_drop X')|]. split; [now apply (state_drop X')|].
    intros a c N. apply (po_same _ _ _ _ _ P); [discriminate|exact N].
  - intro H. rewrite H in W. exact (W eq_refl).
  - intro H. rewrite H in W. exact (W eq_refl).
Qed.
Print Assumptions c186_errors.
(* Sharing does not matter: two expressions that are written alike, whatever nodes they are made
   of and whatever else refers to these, have the same value, output and effect on variables. *)
Theorem c186_sharing : forall cprim prim, prims_agree cprim prim -> forall n e x y v s st r1 s1 r2 s2,
  same_state [] s st -> rep [] (cs_cells s) x v -> rep [] (cs_cells s) y v ->
  ceval cprim n e false x s = (CRet r1 s1, []) -> ceval cprim n e false y s = (CRet r2 s2, []) ->
  exists w st', rep [] (cs_cells s1) r1 w /\ rep [] (cs_cells s2) r2 w /\ same_state [] s1 st' /\ same_state [] s2 st' /\ cs_out s1 = cs_out s2.
Proof.
  intros cprim prim PA n e x y v s st r1 s1 r2 s2 S0 R1 R2 H1 H2.
  destruct (c186_refines _ _ PA n e x v s st r1 s1 S0 R1 H1) as (w & st' & E & A & B & _). destruct (c186_refines _ _ PA n e y v s st r2 s2 S0 R2 H2) as (w2 & st2 & E2 & A2 & B2 & _).
  rewrite E in E2. injection E2 as <- <-. exists w, st'. split; [exact A|]. split; [exact A2|]. split; [exact B|]. split; [exact B2|]. rewrite (same_out _ _ _ B), (same_out _ _ _ B2). reflexivity.
Qed.
Print Assumptions c186_sharing.
(* Whatever the program and the heap (no hypothesis), and however the run ends: the elements of
   all lists stay, and so do the links between nodes, except those out of a node that holds a
   function object. *)
Theorem c186_nodes : forall cprim n e own x s s' a c, end_state (fst (ceval cprim n e own x s)) = Some s' ->
  nth_error (cs_cells s) a = Some c ->
  exists c', nth_error (cs_cells s') a = Some c' /\ c_data c' = c_data c /\ c_dot c' = c_dot c /\
    ((forall nm ar, c_data c <> CFunc nm ar) -> c' = c).
Proof.
  intros cprim n e own x s s' a c H N. pose proof (k_eval cprim n e own x s) as K. assert (Q : kept (cs_cells s) (cs_cells s')).
  { destruct (fst (ceval cprim n e own x s)); cbn [end_state] in H; try discriminate H; injection H as <-; exact K. }
  destruct (Q a c N) as (c' & N' & D & T & U). exists c'. split; [exact N'|]. split; [exact D|]. split; [exact T|]. intro F. apply U. destruct (c_data c); try reflexivity. exfalso. eapply F. reflexivity.
Qed.
Print Assumptions c186_nodes.
(* So an expression as the reader makes it is the same expression after any evaluation, of
   itself or of anything else. *)
Theorem c186_text : forall cprim n e own x s s' y v, end_state (fst (ceval cprim n e own x s)) = Some s' ->
  written v -> rep [] (cs_cells s) y v -> rep [] (cs_cells s') y v.
Proof.
  intros cprim n e own x s s' y v H W R. assert (K : kept (cs_cells s) (cs_cells s')).
  { pose proof (k_eval cprim n e own x s) as K. destruct (fst (ceval cprim n e own x s)); cbn [end_state] in H; try discriminate H; injection H as <-; exact K. }
  clear H. generalize (cs_cells s'), K. clear s' K. intros h' K.
  assert (A : (forall x v, rep [] (cs_cells s) x v -> written v -> rep [] h' x v) /\ (forall a vs d, reps [] (cs_cells s) a vs d -> Forall written vs -> reps [] h' a vs d)).
  { apply (rep_reps_ind [] (cs_cells s) (fun x v _ => written v -> rep [] h' x v) (fun a vs d _ => Forall written vs -> reps [] h' a vs d));
      try (intros; constructor; fail).
    - intros a vs d _ IH W0. constructor. apply IH. inversion W0; auto.
    - intros b e0 bs db _ _ W0. inversion W0.
    - intros p b e0 ps d bs db _ _ _ _ W0. inversion W0.
    - intros a c w N I0 E RW IH W0. inversion W0; subst. destruct (K a c N) as (c' & N' & D & T & U).
      assert (FC : is_cfunc (c_data c) = false) by (destruct RW; try reflexivity; match goal with H : written (VFunc _ _) |- _ => inversion H end). rewrite (U FC) in *. apply reps_last; auto.
    - intros a c w b vs d N I0 E T0 RW IH RS IH2 W0. inversion W0; subst. destruct (K a c N) as (c' & N' & D & T & U).
      assert (FC : is_cfunc (c_data c) = false) by (destruct RW; try reflexivity; match goal with H : written (VFunc _ _) |- _ => inversion H end). rewrite (U FC) in *. eapply reps_more; eauto. }
  now apply A.
Qed.
Print Assumptions c186_text.
(* such a state and expression: the initial state, and what the reader made of a text, in new nodes *)
Theorem c186_start : forall v x h, place v [] = Some (x, h) -> same_state [] (cst0 h) st0 /\ rep [] (cs_cells (cst0 h)) x v /\ prims_agree cprim0 prim0.
Proof. intros v x h H. split; [apply cst0_ok|]. split; [apply (place_rep _ _ _ _ H)|apply cprim0_agrees]. Qed.
Print Assumptions c186_start.
(* a procedure with a rest parameter, closures, let*, letrec, recursion and assignment, on nodes *)
Example c186_run : cgo "(define (compose f . fs) (if (null? fs) f (lambda (x) (f ((car fs) x))))) (define k 1) (define (inc x) (set! k (+ k x)) (+ x k)) (let* ((a 2) (b (+ a 1))) (letrec ((sum (lambda (l) (if (null? l) 0 (+ (car l) (sum (cdr l))))))) (display ((compose inc inc) a)) (sum (list a b ((compose inc inc) b)))))"
  = Some (CInt 44, bs "13", []).
Proof. vm_compute. reflexivity. Qed.
(* named let, do, cond with =>, case, map, for-each, apply, call-with-values, delay and force *)
Example c186_forms : cgo "(define n 0) (define p (delay (begin (set! n (+ n 1)) (* n 10)))) (define (f l) (cond ((null? l) 0) ((cdr l) => (lambda (r) (+ (car l) (f r)))) (else 100))) (define (kind x) (case x ((1 2) 10) ((3) 20) (else 30))) (define s (let loop ((i 0) (acc 0)) (if (< i 4) (loop (+ i 1) (+ acc i)) acc))) (define d (do ((i 0 (+ i 1)) (a 1 (* a 2))) ((= i 5) a) (display i))) (for-each (lambda (x y) (display (+ x y))) (list 1 2) '(3 4)) (force p) (force p) (for-each display (list s d n (f '(1 2)) (apply + 1 2 (map kind '(1 3 9))) (call-with-values (lambda () (values 4 5)) (lambda (a . r) (+ a (car r))))))"
  = Some (CNone, bs "0123446" ++ bs "6" ++ bs "32" ++ bs "1" ++ bs "3" ++ bs "63" ++ bs "9", []).
Proof. vm_compute. reflexivity. Qed.

(** ** C187 *)
Fixpoint holdsb (lo : nat) (h : list cell) (l : option nat) (vs : list cval) : Prop :=
  match vs with
  | [] => l = None
  | v :: r => exists a c, (lo <= a)%nat /\ l = Some a /\ nth_error h a = Some c /\ c_data c = v /\ c_dot c = false /\ holdsb lo h (c_next c) r
  end.
Lemma holdsb_holds lo h : forall vs l, holdsb lo h l vs -> holds h l vs.
Proof. induction vs as [|v vs IH]; intros l H; [exact H|]. destruct H as (a & c & _ & E & N & D & T & R). exists a, c. auto 6. Qed.
Lemma holdsb_mono lo h h' : (forall b c, (lo <= b)%nat -> nth_error h b = Some c -> nth_error h' b = Some c) -> forall vs l, holdsb lo h l vs -> holdsb lo h' l vs.
Proof. intro M. induction vs as [|v vs IH]; intros l H; [exact H|]. destruct H as (a & c & L & E & N & D & T & R). exists a, c. auto 8. Qed.
Lemma alloc_holds lo : forall vs s, (lo <= length (cs_cells s))%nat -> exists l new, alloc_list vs s = (CRet l (with_cells s (cs_cells s ++ new)), []) /\ holdsb lo (cs_cells s ++ new) l vs.
Proof.
  induction vs as [|v vs IH]; intros s L.
  - exists None, []. cbn. rewrite app_nil_r. destruct s. split; reflexivity.
  - destruct (IH s L) as (l & new & E & HL). cbn [alloc_list]. rewrite (cbind_eq _ _ _ _ _ E). rewrite cbind_alloc. cbn [with_cells cs_cells cs_frames cs_mods cs_cur cs_out cs_proms].
    exists (Some (length (cs_cells s ++ new))), (new ++ [mkCell v l false]). rewrite app_assoc. split; [reflexivity|]. cbn [holdsb].
    exists (length (cs_cells s ++ new)), (mkCell v l false). split; [rewrite app_length; lia|]. split; [reflexivity|]. split; [apply nth_new|]. split; [reflexivity|]. split; [reflexivity|]. cbn [c_next].
    revert HL. apply holdsb_mono. intros b c _ N. rewrite nth_error_app1; [exact N|eapply nth_lt; eauto].
Qed.
Lemma upd_same {A} (l : list A) : forall i x y, nth_error l i = Some y -> nth_error (upd l i x) i = Some x.
Proof. induction l as [|z l IH]; intros [|i] x y H; cbn in *; try discriminate H; [reflexivity|eauto]. Qed.
(* A list with a function object in front, evaluated by a program: the operands are evaluated
   and the list then has their values in place of the operands. *)
Theorem c187_operands_replaced : forall cprim n e a c nm ar vs s s1 o, nth_error (cs_cells s) a = Some c -> c_data c = CFunc nm ar ->
  beq nm (bs "apply") = false -> beq nm (bs "map") = false -> beq nm (bs "map-in-order") = false -> is_callcc nm = false ->
  cargs (ceval cprim n) n e (c_next c) s = (CRet vs s1, o) ->
  exists s2 l o2, ceval cprim (S n) e false (CPair a) s = (fst (ccall cprim (ceval cprim n) n nm ar vs s2), o2) /\
    nth_error (cs_cells s2) a = Some (mkCell (CFunc nm ar) l (c_dot c)) /\ holds (cs_cells s2) l vs /\
    (forall b, b <> a -> (b < length (cs_cells s1))%nat -> nth_error (cs_cells s2) b = nth_error (cs_cells s1) b).
Proof.
  intros cprim n e a c nm ar vs s s1 o N D O1 O2 O3 O4 H.
  assert (K1 : kept (cs_cells s) (cs_cells s1)). { pose proof (k_args (ceval cprim n) (k_eval cprim n) n e (c_next c) s) as K. rewrite H in K. exact K. }
  destruct (K1 a c N) as (c1 & N1 & D1 & T1 & _).
  destruct (alloc_holds (length (cs_cells s1)) vs s1 (Nat.le_refl _)) as (l & new & E & HL).
  set (s2 := with_cells s1 (upd (cs_cells s1 ++ new) a (mkCell (c_data c1) l (c_dot c1)))).
  assert (LA : (a < length (cs_cells s1))%nat) by (eapply nth_lt; eauto).
  assert (N2 : nth_error (cs_cells s1 ++ new) a = Some c1) by (rewrite nth_error_app1; auto).
  exists s2, l, (o ++ [] ++ [a] ++ snd (ccall cprim (ceval cprim n) n nm ar vs s2)). split; [|split; [|split]].
  - cbn [ceval cstep]. rewrite (cbind_get _ _ _ _ N). rewrite D, O1, O2, O3, O4. cbn [orb]. unfold cbind at 1. rewrite H. unfold cbind at 1. rewrite E. unfold cbind, set_next. cbn [with_cells cs_cells]. rewrite N2.
    change (with_cells (with_cells s1 (cs_cells s1 ++ new)) (upd (cs_cells s1 ++ new) a (mkCell (c_data c1) l (c_dot c1)))) with s2. destruct (ccall cprim (ceval cprim n) n nm ar vs s2) as [r q]. reflexivity.
  - unfold s2. cbn [with_cells cs_cells]. rewrite (upd_same _ _ _ _ N2). rewrite D1, T1, D. reflexivity.
  - apply (holdsb_holds (length (cs_cells s1))). revert HL. apply holdsb_mono. intros b d L Nb. unfold s2. cbn [with_cells cs_cells]. rewrite upd_other by lia. exact Nb.
  - intros b NE L. unfold s2. cbn [with_cells cs_cells]. rewrite upd_other by auto. now rewrite nth_error_app1.
Qed.
Print Assumptions c187_operands_replaced.

(* So an expression can change by being evaluated, and another evaluation goes differently:
   the list of the function car and '(5 6) gives 5, then has become (car (5 6)), and gives an error. *)
Definition code : val := VList [VFunc (bs "car") 1; VList [sym "quote"; VList [VInt 5; VInt 6] false] false] false.
Definition code_at : cval * list cell := match place code [] with Some p => p | None => (CNone, []) end.
Definition once : cout cval * list nat := ceval cprim0 20 g_env false (fst code_at) (cst0 (snd code_at)).
Definition after_once : cstate := match end_state (fst once) with Some s => s | None => cst0 [] end.
Lemma code_run : match fst once with CRet (CInt 5) _ => true | _ => false end = true. Proof. vm_compute. reflexivity. Qed.
Lemma code_again : match fst (ceval cprim0 20 g_env false (fst code_at) after_once) with CErr _ => true | _ => false end = true. Proof. vm_compute. reflexivity. Qed.
Lemma code_once : fst once = CRet (CInt 5) after_once.
Proof.
  pose proof code_run as H. unfold after_once. generalize dependent once. intros [r o]. cbn [fst]. destruct r as [x s1| | | | | |]; try discriminate. destruct x; try discriminate.
  destruct z as [|[[[p|p|]|[p|p|]|]|q|]|]; try discriminate. reflexivity.
Qed.
Theorem c187_runs_differ : exists s s' r x v, same_state [] s st0 /\ rep [] (cs_cells s) x v /\ v = code /\
  fst (ceval cprim0 20 g_env false x s) = CRet r s' /\ r = CInt 5 /\
  (exists s2, fst (ceval cprim0 20 g_env false x s') = CErr s2).
Proof.
  exists (cst0 (snd code_at)), after_once, (CInt 5), (fst code_at), code. split; [apply cst0_ok|].
  split; [apply (place_rep code [] (fst code_at) (snd code_at)); vm_compute; reflexivity|]. split; [reflexivity|]. split; [apply code_once|]. split; [reflexivity|].
  pose proof code_again as H. generalize dependent (fst (ceval cprim0 20 g_env false (fst code_at) after_once)). intros r H. destruct r; try discriminate. eexists. reflexivity.
Qed.
Print Assumptions c187_runs_differ.
(* as a tree it has the same value again and again *)
Example c187_tree : match eval prim0 20 g_env code st0 with Ret (VInt 5) st => match eval prim0 20 g_env code st with Ret (VInt 5) _ => true | _ => false end | _ => false end = true.
Proof. vm_compute. reflexivity. Qed.
(* evaluating an expression does not change it: false *)
Theorem c187_unchanged_refuted : ~ (forall n e x v s r s' o, rep [] (cs_cells s) x v -> ceval cprim0 n e false x s = (CRet r s', o) -> rep [] (cs_cells s') x v).
Proof.
  intro H. assert (R : rep [] (snd code_at) (fst code_at) code) by (apply (place_rep code [] (fst code_at) (snd code_at)); vm_compute; reflexivity).
  specialize (H 20%nat g_env (fst code_at) code (cst0 (snd code_at)) (CInt 5) after_once (snd once) R). 
  assert (E : ceval cprim0 20 g_env false (fst code_at) (cst0 (snd code_at)) = (CRet (CInt 5) after_once, snd once)) by (change (once = (CRet (CInt 5) after_once, snd once)); rewrite <- code_once; apply surjective_pairing).
  specialize (H E). clear R E. assert (A : exists a, fst code_at = CPair a /\ exists c b c2, nth_error (cs_cells after_once) a = Some c /\ c_next c = Some b /\ nth_error (cs_cells after_once) b = Some c2 /\
     exists q cq, c_data c2 = CPair q /\ nth_error (cs_cells after_once) q = Some cq /\ c_data cq = CInt 5).
  { vm_compute. repeat eexists. }
  destruct A as (a & EA & c & b & c2 & N & NB & N2 & q & cq & DQ & NQ & D5). rewrite EA in H. inversion H as [| | | | | | | | |a0 vs d R| |]; subst.
  apply reps_inv in R. destruct R as (c' & v & t & EV & N' & _ & _ & T & _). rewrite N in N'. injection N' as <-. rewrite NB in T. apply tails_some in T. destruct T as (c2' & v2 & t2 & -> & N2' & _ & R2 & _).
  rewrite N2 in N2'. injection N2' as <-. rewrite DQ in R2. unfold code in EV. injection EV as <- EV2 _. subst v2. inversion R2 as [| | | | | | | | |a0 vs d0 R3| |]; subst.
  apply reps_inv in R3. destruct R3 as (cq' & v3 & t3 & E3 & N3 & _ & R3 & _). rewrite NQ in N3. injection N3 as <-. rewrite D5 in R3. injection E3 as <- _. inversion R3.
Qed.
Print Assumptions c187_unchanged_refuted.
