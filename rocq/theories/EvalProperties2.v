(** C41, C55-C57: binding forms, conditionals and do.  Vocabulary: EvalSpec. *)
From Coq Require Import String Lia.
From Verif Require Import Base ParseModel PrintModel EnvModel EnvSpec EnvProofs EvalModel EvalMono EvalInv EvalInv2 EvalSpec EvalProofs
  EvalProofs2 EvalProofs3 EvalWitness EvalProperties.
Local Open Scope string_scope.
Local Open Scope list_scope.

(** * C55. let, let*, letrec *)
Theorem c55_let : forall prim e l b bs st o, plain e "let" st -> plain e "lambda" st ->
  (runs prim e (form_ "let" (bindings l :: b :: bs)) st o <-> let_run prim e l (b :: bs) st o).
Proof. intros. now apply runs_let. Qed.
Print Assumptions c55_let.
(* [letstar_run] and [letrec_run] say that the keywords the expansion uses must not
   be redefined as macros by the inits; evaluation is deterministic (C64), so the
   ending they give is the only one *)
Theorem c55_letstar : forall prim l e b bs st o, letstar_run prim e l (b :: bs) st o ->
  runs prim e (form_ "let*" (bindings l :: b :: bs)) st o.
Proof. intros. now apply runs_letstar. Qed.
Print Assumptions c55_letstar.
Theorem c55_letrec : forall prim l e b bs st o, plain e "letrec" st -> plain e "let" st -> plain e "lambda" st ->
  letrec_run prim e l (b :: bs) st o -> runs prim e (form_ "letrec" (bindings l :: b :: bs)) st o.
Proof. intros. now apply runs_letrec. Qed.
Print Assumptions c55_letrec.
Example c55_ex_plain : plain g_env "let" st0 /\ plain g_env "lambda" st0 /\ plain g_env "letrec" st0 /\ plain g_env "let*" st0.
Proof. repeat split; apply plain0; reflexivity. Qed.
(* the spec gives an ending for a concrete let* with two bindings *)
Lemma plain_fe k st fe : (forall v, head_value st fe (bs k) = Some v -> is_macro v = false) -> plain fe k st.
Proof. auto. Qed.
Example c55_ex_letstar : exists st', letstar_run prim0 g_env [(bs "x", VInt 2); (bs "y", expr "(* x 3)")] [expr "(+ x y)"] st0 (Ret (VInt 8) st').
Proof.
  eexists. split; [repeat split; apply plain0; reflexivity|].
  apply andthen_new. left. exists (VInt 2). eexists. split; [apply (runs_const prim0); [exact I|reflexivity]|].
  apply (proj2 (andthen_effect _ _ _ _)). split.
  { repeat split; intros v; vm_compute; discriminate. }
  unfold let_run, call_run. apply andthen_new. left. exists tt. eexists. split.
  { cbn [map bind_run fst snd]. left. exists (VInt 6). eexists. split; [exists 20%nat; split; [vm_compute; reflexivity|discriminate]|].
    apply (proj2 (andthen_effect _ _ _ _)). reflexivity. }
  cbn [body_run]. exists 20%nat. split; [vm_compute; reflexivity|discriminate].
Qed.
Example c55_ex_let : go "(define x 1) (let ((x 2) (y x)) (list x y))" = Some (VList [VInt 2; VInt 1] false, []). Proof. vm_compute. reflexivity. Qed.
Example c55_ex_star : go "(define x 1) (let* ((x 2) (y x)) (list x y))" = Some (VList [VInt 2; VInt 2] false, []). Proof. vm_compute. reflexivity. Qed.
Example c55_ex_rec : go "(letrec ((even (lambda (n) (if (= n 0) #t (odd (- n 1))))) (odd (lambda (n) (if (= n 0) #f (even (- n 1)))))) (even 10))"
  = Some (VBool true, []). Proof. vm_compute. reflexivity. Qed.
Example c55_ex_letrec : exists st', letrec_run prim0 g_env [(bs "f", expr "(lambda (n) (if (= n 0) 'z (f (- n 1))))")] [expr "(f 3)"] st0 (Ret (sym "z") st').
Proof.
  eexists. apply andthen_new. left. exists tt. eexists. split.
  { cbn [map each_run fst]. apply (proj2 (andthen_effect _ _ _ _)). reflexivity. }
  left. exists tt. eexists. split.
  { cbn [each_run fst snd]. left. exists tt. eexists. split.
    - split; [intros v; vm_compute; discriminate|]. left. eexists. eexists. split; [exists 20%nat; split; [vm_compute; reflexivity|discriminate]|reflexivity].
    - reflexivity. }
  cbn [body_run]. exists 60%nat. split; [vm_compute; reflexivity|discriminate].
Qed.

(** * C56. Named let *)
(* With one body expression.  [named_run] shows the hidden frame of temporaries. *)
Theorem c56_one_body : forall prim e f p l b st o, form_of f = None -> plain e "let" st -> plain e "lambda" st ->
  named_run prim e f (p :: l) b st o -> runs prim e (form_ "let" [VSym f; bindings (p :: l); b]) st o.
Proof. intros. now apply runs_named. Qed.
Print Assumptions c56_one_body.
Theorem c56_no_variables : forall prim e f b st o, form_of f = None -> plain e "let" st -> plain e "letrec" st -> plain e "lambda" st ->
  (fe <~ new_frame e ;; _ <~ binds fe f (VBool false) ;;
   given (fun st => plain fe "set!" st /\ plain fe "lambda" st)
     (_ <~ binds fe f (closure [] None [b] fe) ;; call_run prim fe [] None [b] fe [])) st o ->
  runs prim e (form_ "let" [VSym f; VNil; b]) st o.
Proof. intros. now apply runs_named0. Qed.
Print Assumptions c56_no_variables.
(* Every body expression after the first one is ignored. *)
Theorem c152_rest_of_body_refuted : forall prim e f l b more st o, plain e "let" st ->
  (runs prim e (form_ "let" (VSym f :: bindings l :: b :: more)) st o <-> runs prim e (form_ "let" [VSym f; bindings l; b]) st o).
Proof.
  intros prim e f l b more st o P. rewrite !(runs_special prim e "let" FLet _ st o P eq_refl). cbn [special].
  replace (expand_let (VSym f :: bindings l :: b :: more)) with (expand_let [VSym f; bindings l; b]); [reflexivity|].
  destruct l; reflexivity.
Qed.
Print Assumptions c152_rest_of_body_refuted.
Example c56_ex : go "(let loop ((i 0)) (display i) (if (< i 3) (loop (+ i 1)) 'done))" = Some (VNone, bs "0"). Proof. vm_compute. reflexivity. Qed.
Example c56_ex2 : go "(let loop ((i 0)) (if (< i 3) (loop (+ i 1)) 'done))" = Some (sym "done", []). Proof. vm_compute. reflexivity. Qed.
(* The temporaries are visible to the body. *)
Example c56_capture : go "(let ((__temp_0 'mine)) (let loop ((i 0)) __temp_0))" = Some (VInt 0, []). Proof. vm_compute. reflexivity. Qed.

(** * C57. cond and case *)
(* A clause with only a test returns #t instead of the test's value. *)
Theorem c120_cond : forall prim e c cs st o, plain e "cond" st -> Forall clause_ok (c :: cs) -> Forall no_arrow (c :: cs) ->
  (runs prim e (form_ "cond" (map clause_val (c :: cs))) st o <-> cond_run prim (fun _ => VBool true) e (c :: cs) st o).
Proof.
  intros prim e c cs st o P F N. rewrite (runs_special prim e "cond" FCond _ st o P eq_refl).
  change (special prim (eval prim ?n) ?m e FCond (map clause_val (c :: cs))) with (eval_cond (eval prim n) e (map clause_val (c :: cs))).
  destruct (cond_ok prim (c :: cs) e F) as [H1 H2]. split; auto.
Qed.
Print Assumptions c120_cond.
(* with => clauses (the receiver's value must not be a symbol, and => not bound
   in the innermost frame) *)
Theorem c120_cond_arrow : forall prim e c cs st o, plain e "cond" st -> Forall clause_ok (c :: cs) ->
  cond_run prim (fun _ => VBool true) e (c :: cs) st o -> runs prim e (form_ "cond" (map clause_val (c :: cs))) st o.
Proof.
  intros prim e c cs st o P F H. rewrite (runs_special prim e "cond" FCond _ st o P eq_refl).
  change (special prim (eval prim ?n) ?m e FCond (map clause_val (c :: cs))) with (eval_cond (eval prim n) e (map clause_val (c :: cs))).
  destruct (cond_ok prim (c :: cs) e F) as [H1 H2]. auto.
Qed.
Print Assumptions c120_cond_arrow.
Theorem c167_test_value_refuted : forall prim e t v st st1, plain e "cond" st -> t <> sym "else" ->
  runs prim e t st (Ret v st1) -> truthy v = true ->
  runs prim e (form_ "cond" [VList [t] false]) st (Ret (VBool true) st1).
Proof.
  intros prim e t v st st1 P N R T. apply (proj2 (c120_cond prim e (Test t) [] st _ P ltac:(constructor; [exact N|constructor]) ltac:(constructor; [exact I|constructor]))).
  cbn [cond_run]. left. exists v, st1. split; auto. rewrite T. reflexivity.
Qed.
Print Assumptions c167_test_value_refuted.
Example c57_ex_test : go "(cond ((+ 1 2)))" = Some (VBool true, []). Proof. vm_compute. reflexivity. Qed.
Example c57_ex : go "(cond (#f (display 1)) ((< 1 2) (display 2) 'two) (else (display 3)))" = Some (sym "two", bs "2"). Proof. vm_compute. reflexivity. Qed.
Example c57_ex_arrow : go "(cond ((+ 1 2) => (lambda (x) (* x 5))) (else 0))" = Some (VInt 15, []). Proof. vm_compute. reflexivity. Qed.
Example c57_ex_ok : Forall clause_ok [Body (VBool false) (VInt 1) []; Arrow (VInt 1) (expr "(lambda (x) x)"); Else (VInt 2) []] /\ plain g_env "cond" st0.
Proof. split; [repeat constructor; cbn; discriminate|apply plain0; reflexivity]. Qed.
Theorem c57_case : forall prim e k cs st o, plain e "case" st ->
  (runs prim e (form_ "case" (k :: map case_val cs)) st o <-> (key <~ runs prim e k ;; case_run prim val_eq e key cs) st o).
Proof.
  intros prim e k cs st o P. rewrite (runs_special prim e "case" FCase _ st o P eq_refl). cbn [special].
  etransitivity; [apply lim_bind; [apply mono_eval|intro; apply mono_case]|].
  refine (andthen_cong _ _ _ _ _ _ st o); [reflexivity|]. intro key. apply case_ok.
Qed.
Print Assumptions c57_case.
(* the comparison: identity on atoms, contents on strings, lists and vectors *)
Definition atom (v : val) : Prop := match v with VNil | VBool _ | VInt _ | VChar _ | VSym _ | VStr _ => True | _ => False end.
Theorem c57_case_key : forall k d, atom k -> (val_eq k d = true <-> k = d).
Proof.
  intros k d A. destruct k; try contradiction; destruct d; cbn [val_eq]; split; intro H; try discriminate; auto.
  - f_equal. now apply eqb_prop.
  - injection H as ->. apply eqb_reflx.
  - f_equal. now apply Z.eqb_eq.
  - injection H as ->. apply Z.eqb_refl.
  - f_equal. now apply Z.eqb_eq.
  - injection H as ->. apply Z.eqb_refl.
  - destruct (beq_spec s s0); [now subst|discriminate].
  - injection H as ->. apply beq_refl.
  - destruct (beq_spec n n0); [now subst|discriminate].
  - injection H as ->. apply beq_refl.
Qed.
Print Assumptions c57_case_key.
(* a dotted pair key selects a clause that holds a proper list *)
Theorem c167_dotted_key_refuted : go "(case '(1 . 2) (((1 2)) 'proper) (else 'no))" = Some (sym "proper", []).
Proof. vm_compute. reflexivity. Qed.
Print Assumptions c167_dotted_key_refuted.
Example c57_ex_case : go "(case (* 2 3) ((2 3 5 7) 'prime) ((1 4 6 8 9) (display 1) 'composite) (else 'none))" = Some (sym "composite", bs "1").
Proof. vm_compute. reflexivity. Qed.

(** * C41. do *)
(* [do_run]: the variables are in a fresh frame; all steps are evaluated before
   any variable changes.  No enclosing procedure or loop may bind a
   variable of the same name (unbound_frames in inits_run). *)
Theorem c41_do : forall prim e ds t res body st o, plain e "do" st -> do_run prim e ds t res body st o ->
  runs prim e (form_ "do" (mklist (map do_val ds) :: VList (t :: res) false :: body)) st o.
Proof. intros. now apply runs_do. Qed.
Print Assumptions c41_do.
Example c41_ex : exists st', do_run prim0 g_env [mkDo (bs "i") (VInt 0) (Some (expr "(+ i 1)")); mkDo (bs "j") (VInt 5) (Some (expr "i"))]
  (expr "(= i 2)") [expr "(list i j)"] [expr "(display j)"] st0 (Ret (VList [VInt 2; VInt 1] false) st') /\ d_out (s_dyn st') = bs "50".
Proof.
  eexists. split.
  - unfold do_run. apply andthen_new. left. exists tt. eexists. split.
    { unfold inits_run. cbn [each_run do_init do_var]. apply (proj2 (andthen_assoc _ _ _ _ _)). left. exists (VInt 0). eexists.
      split; [apply runs_const; [exact I|reflexivity]|]. left. exists tt. eexists. split; [split; [vm_compute; reflexivity|reflexivity]|].
      apply (proj2 (andthen_assoc _ _ _ _ _)). left. exists (VInt 5). eexists.
      split; [apply runs_const; [exact I|reflexivity]|]. left. exists tt. eexists. split; [split; [vm_compute; reflexivity|reflexivity]|].
      reflexivity. }
    exists 3%nat.
    assert (X : forall k fe st v st1 u st2, runs prim0 fe (expr "(= i 2)") st (Ret v st1) -> v = VBool false ->
       runs prim0 fe (expr "(display j)") st1 (Ret u st2) -> forall vs st3 st4 o,
       args_run prim0 fe [expr "(+ i 1)"; expr "i"] st2 (Ret vs st3) -> binds_all fe [bs "i"; bs "j"] vs st3 (Ret tt st4) ->
       loop_run prim0 k fe [mkDo (bs "i") (VInt 0) (Some (expr "(+ i 1)")); mkDo (bs "j") (VInt 5) (Some (expr "i"))] (expr "(= i 2)") [expr "(list i j)"] [expr "(display j)"] st4 o ->
       loop_run prim0 (S k) fe [mkDo (bs "i") (VInt 0) (Some (expr "(+ i 1)")); mkDo (bs "j") (VInt 5) (Some (expr "i"))] (expr "(= i 2)") [expr "(list i j)"] [expr "(display j)"] st o).
    { intros k fe st v st1 u st2 R1 -> R2 vs st3 st4 o R3 R4 R5. cbn [loop_run]. left. eexists. eexists. split; [exact R1|]. cbv iota.
      left. exists [u], st2. split. { left. exists u, st2. split; auto. left. exists [], st2. split; reflexivity. }
      left. exists tt, st4. split; auto. left. exists vs, st3. split; auto. }
    Ltac one := exists 20%nat; split; [vm_compute; reflexivity|discriminate].
    Ltac two := cbn [args_run]; left; eexists; eexists; split; [one|left; eexists; eexists; split; [left; eexists; eexists; split; [one|left; eexists; eexists; split; reflexivity]|reflexivity]].
    eapply X; [one|reflexivity|one|two|vm_compute; left; eexists; eexists; split; [reflexivity|left; eexists; eexists; split; reflexivity]|].
    eapply X; [one|reflexivity|one|two|vm_compute; left; eexists; eexists; split; [reflexivity|left; eexists; eexists; split; reflexivity]|].
    cbn [loop_run]. left. eexists. eexists. split; [one|]. cbv iota. cbn [result_run body_run]. one.
  - vm_compute. reflexivity.
Qed.
Example c41_ex_parallel : go "(do ((a 1 b) (b 2 a) (i 0 (+ i 1))) ((= i 3) (list a b)))" = Some (VList [VInt 2; VInt 1] false, []).
Proof. vm_compute. reflexivity. Qed.
(* A variable of an enclosing frame with the same name is overwritten. *)
Theorem c145_outer_variable_refuted : forall prim e x z a old st, plain e "do" st ->
  search_chain st (e_chain e) x = Some (a, old) -> frames_exist e st ->
  exists st', runs prim e (form_ "do" [VList [VList [VSym x; VInt z] false] false; VList [VBool true] false]) st (Ret VNone st') /\
    search_chain st' (e_chain e) x = Some (a, VInt z).
Proof.
  intros prim e x z a old st P S FX. inversion FX as [|? ? F0 FC]; subst.
  set (st1 := snd (make_env st e)).
  assert (OLD : forall b, (b < length (s_frames st))%nat -> frame_at st1 b = frame_at st b).
  { intros b L. unfold st1, frame_at. cbn. now rewrite app_nth1. }
  assert (S1 : search_chain st1 (e_chain e) x = Some (a, old)) by (rewrite <- S; apply search_new; auto).
  assert (LA : (a < length (s_frames st))%nat).
  { clear - S FC. induction (e_chain e) as [|b c IH]; [discriminate|]. inversion FC; subst. cbn [search_chain] in S.
    destruct (assoc x (frame_at st b)); [injection S as <- <-; auto|auto]. }
  assert (NF : assoc x (frame_at st1 (length (s_frames st))) = None).
  { unfold st1, frame_at. cbn. rewrite app_nth2 by lia. now rewrite Nat.sub_diag. }
  set (st2 := set_frame st1 a (put x (VInt z) (frame_at st1 a))).
  exists st2. split.
  - apply (runs_special prim e "do" FDo _ st _ P eq_refl). exists 5%nat. split; [|discriminate].
    cbn [special do_do cast_list]. unfold ebind at 1, alloc_frame. fold st1. cbn [make_env].
    change (mkState (s_frames st ++ [[]]) (s_mods st) (s_cur st) (s_proms st) (s_dyn st)) with st1.
    change (do_inits (eval prim 5) e (mkEnv (length (s_frames st) :: e_chain e) (e_mod e)) [VList [VSym x; VInt z] false])
      with (let! v := eval prim 5 e (VInt z) in
            let! _ := insert_up (mkEnv (length (s_frames st) :: e_chain e) (e_mod e)) x v in
            let! ss := ret (@nil (list Z * val)) in ret ss).
    assert (INS : env_insert st1 (mkEnv (length (s_frames st) :: e_chain e) (e_mod e)) x (VInt z) true = st2).
    { unfold env_insert, search_entry. cbn [e_chain search_chain]. rewrite NF, S1. reflexivity. }
    clearbody st1 st2.
    unfold ebind, insert_up, modify, ret. cbn [eval step]. unfold ret. rewrite INS. reflexivity.
  - unfold st2. clear - S1 LA FC OLD.
    assert (LA' : (a < length (s_frames st1))%nat) by (unfold st1; cbn; rewrite app_length; cbn; lia).
    induction (e_chain e) as [|b c IH]; [discriminate|]. inversion FC; subst. cbn [search_chain] in *.
    unfold set_frame, frame_at at 1. cbn [s_frames]. rewrite nth_upd by auto.
    destruct (Nat.eqb_spec a b) as [-> |NE].
    + rewrite assoc_put, beq_refl. reflexivity.
    + unfold frame_at at 1 in S1. destruct (assoc x (nth b (s_frames st1) [])) as [v|] eqn:A; [injection S1 as -> ->; congruence|].
      rewrite <- IH; auto.
Qed.
Print Assumptions c145_outer_variable_refuted.
Example c41_ex_outer : go "(let ((i 10)) (do ((i 0 (+ i 1))) ((= i 3))) i)" = Some (VInt 3, []). Proof. vm_compute. reflexivity. Qed.
(* A test that is not a boolean is an error. *)
Theorem c145_test_value_refuted : go "(catch 'error (lambda () (do ((i 0 (+ i 1))) ((+ i 1) i))) (lambda (k . r) k))" = Some (sym "error", []).
Proof. vm_compute. reflexivity. Qed.
Print Assumptions c145_test_value_refuted.
