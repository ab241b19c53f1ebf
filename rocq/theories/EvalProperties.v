(** C41, C53-C57, C64: statements about the special forms, procedure calls and
    determinism.  Vocabulary: EvalSpec.  [runs prim e x st o]: evaluating x in e
    from state st ends as o (a value and a state, a throw, a continuation jump,
    exit, a failed assert or undefined behaviour).  [x <~ m ;; k]: first m, then
    k on its value; if m ends abnormally so does the whole and k does not happen.
    [prim]: any primitive procedures.  [plain e k st]: the keyword k has not been
    redefined as a macro. *)
From Coq Require Import String Lia.
From Verif Require Import Base ParseModel PrintModel EnvModel EnvSpec EnvProofs EvalModel EvalMono EvalInv EvalInv2 EvalSpec EvalProofs
  EvalProofs2 EvalProofs3 EvalWitness.
Local Open Scope string_scope.
Local Open Scope list_scope.

Ltac run_it := exists 60%nat; vm_compute; split; [reflexivity|discriminate].
Lemma plain0 k : match assoc (bs k) globals with Some v => is_macro v | None => false end = false -> plain g_env k st0.
Proof.
  intros H v E. unfold head_value, env_exist, search_entry in E. cbn [e_chain g_env firstn search_chain] in E.
  change (frame_at st0 0) with globals in E. destruct (assoc (bs k) globals) as [w|]; [injection E as ->; auto|].
  cbn in E. discriminate.
Qed.

(** * C64. Determinism *)
Theorem c64_deterministic : forall prim e x st o1 o2, runs prim e x st o1 -> runs prim e x st o2 -> o1 = o2.
Proof. intros. eapply runs_det; eauto. Qed.
Print Assumptions c64_deterministic.
Theorem c64_more_fuel : forall prim n n' e x st, (n <= n')%nat -> eval prim n e x st <> OFuel ->
  eval prim n' e x st = eval prim n e x st.
Proof. intros prim n n' e x st L N. destruct (eval_mono prim n n' e x L st); congruence. Qed.
Print Assumptions c64_more_fuel.
Example c64_ex : runs prim0 g_env (expr "((lambda (f) (f f 5)) (lambda (g n) (if (= n 0) 'done (g g (- n 1)))))") st0
  (eval prim0 60 g_env (expr "((lambda (f) (f f 5)) (lambda (g n) (if (= n 0) 'done (g g (- n 1)))))") st0).
Proof. run_it. Qed.

(** * C53. if, and, or, begin *)
Theorem c53_if : forall prim e t c a st o, plain e "if" st ->
  (runs prim e (form_ "if" [t; c; a]) st o <->
   (v <~ runs prim e t ;; if truthy v then runs prim e c else runs prim e a) st o).
Proof. intros prim e t c a st o P. rewrite (runs_special prim e "if" FIf _ st o P eq_refl). apply lim_if. Qed.
Print Assumptions c53_if.
Theorem c53_if_one_armed : forall prim e t c st o, plain e "if" st ->
  (runs prim e (form_ "if" [t; c]) st o <->
   (v <~ runs prim e t ;; if truthy v then runs prim e c else returns VNone) st o).
Proof. intros prim e t c st o P. rewrite (runs_special prim e "if" FIf _ st o P eq_refl). apply lim_if1. Qed.
Print Assumptions c53_if_one_armed.
Theorem c53_and : forall prim e es st o, plain e "and" st -> (runs prim e (form_ "and" es) st o <-> and_run prim e es st o).
Proof. intros prim e es st o P. rewrite (runs_special prim e "and" FAnd _ st o P eq_refl). apply lim_and. Qed.
Print Assumptions c53_and.
Theorem c53_or : forall prim e es st o, plain e "or" st -> (runs prim e (form_ "or" es) st o <-> or_run prim e es st o).
Proof. intros prim e es st o P. rewrite (runs_special prim e "or" FOr _ st o P eq_refl). apply lim_or. Qed.
Print Assumptions c53_or.
Theorem c53_begin : forall prim e b es st o, plain e "begin" st ->
  (runs prim e (form_ "begin" (b :: es)) st o <-> body_run prim e (b :: es) st o).
Proof. intros prim e b es st o P. rewrite (runs_special prim e "begin" FBegin _ st o P eq_refl). apply lim_body. Qed.
Print Assumptions c53_begin.
(* only #f is false *)
Theorem c53_truth : forall v, truthy v = false <-> v = VBool false.
Proof. intro v. split; [apply truthy_false|intros ->; reflexivity]. Qed.
Print Assumptions c53_truth.
Example c53_ex : plain g_env "if" st0 /\ plain g_env "and" st0 /\ plain g_env "or" st0 /\ plain g_env "begin" st0.
Proof. repeat split; apply plain0; reflexivity. Qed.
Example c53_ex_if : go "(if (< 1 2) (begin (display 1) 'a) (display 2))" = Some (sym "a", bs "1"). Proof. vm_compute. reflexivity. Qed.
Example c53_ex_and : go "(and (display 1) 7 #f (display 2))" = Some (VBool false, bs "1"). Proof. vm_compute. reflexivity. Qed.
Example c53_ex_or : go "(or #f (begin (display 1) '()) (display 2))" = Some (VNil, bs "1"). Proof. vm_compute. reflexivity. Qed.

(** * C54. Procedures *)
(* lambda makes a closure over the current environment *)
Theorem c54_lambda : forall prim e xs rest b bs st o, plain e "lambda" st ->
  (runs prim e (form_ "lambda" (params xs rest :: b :: bs)) st o <-> returns (closure xs rest (b :: bs) e) st o).
Proof. intros. now apply runs_lambda. Qed.
Print Assumptions c54_lambda.
(* the operator: an expression is evaluated first *)
Theorem c54_operator_expression : forall prim e h hd args st o,
  (runs prim e (VList (VList h hd :: args) false) st o <->
   (f <~ runs prim e (VList h hd) ;; runs prim e (VList (f :: args) false)) st o).
Proof.
  intros prim e h hd args st o. rewrite runs_operator_expr. destruct args; reflexivity.
Qed.
Print Assumptions c54_operator_expression.
(* a variable is looked up.  Not if it is one of the special form names,
   and (head_value) in a module other than the root one the module's binding wins
   over that of an enclosing procedure *)
Theorem c54_operator_variable : forall prim e f args v st o,
  head_value st e f = Some v \/ (head_value st e f = None /\ env_search st e f = Some v) ->
  is_macro v = false -> form_of f = None ->
  (runs prim e (VList (VSym f :: args) false) st o <-> runs prim e (VList (v :: args) false) st o).
Proof. intros prim e f args v st o H M F. rewrite (runs_operator prim e f args false v st o H M F). destruct args; reflexivity. Qed.
Print Assumptions c54_operator_variable.
(* The call: operands from left to right, parameters bound in a fresh frame below
   the closure's environment, then the body; a wrong count is an error.
   with a rest parameter there must be an operand for each other parameter. *)
Theorem c54_call : forall prim e xs rest body pe args st o, rest = None \/ (length xs <= length args)%nat ->
  (runs prim e (VList (closure xs rest body pe :: args) false) st o <-> call_run prim e xs rest body pe args st o).
Proof. intros. now apply runs_call. Qed.
Print Assumptions c54_call.
(* A call of a procedure with a rest parameter and too few operands is not an
   error: it runs the body with the missing parameters unbound. *)
Theorem c151_too_few_refuted : forall prim e x y r b bs pe a st o,
  (runs prim e (VList [closure [x; y] (Some r) (b :: bs) pe; a] false) st o <->
   (fe <~ new_frame pe ;; v <~ runs prim e a ;; _ <~ binds fe x v ;; body_run prim fe (b :: bs)) st o).
Proof.
  intros prim e x y r b bs pe a st o. rewrite runs_step. cbn [closure map app step].
  assert (E : lim (fun n => apply_proc (eval prim n) e [VSym x; VSym y; VSym r] true (b :: bs) pe [a]) ==
    (fe <~ new_frame pe ;; v <~ runs prim e a ;; _ <~ binds fe x v ;; body_run prim fe (b :: bs))).
  { transitivity (lim (fun n => ebind (alloc_frame pe) (fun fe => ebind (eval prim n e a) (fun v => ebind (insert fe x v) (fun _ =>
      eval_body (eval prim n) fe (b :: bs)))))).
    - apply lim_ext. intros n s. unfold apply_proc, has_rest. cbn [last andb]. cbv match. unfold ebind at 1 3. destruct (alloc_frame pe s) as [fe s1| | | | | |]; auto.
      cbn [bind_loop is_sym]. cbv match. unfold ebind, insert, modify, ret. destruct (eval prim n e a s1); auto.
    - rewrite lim_bind; [|apply mono_const|intro; apply mono_bind; [apply mono_eval|intro; apply mono_bind; [apply mono_const|intro; apply mono_body]]].
      apply andthen_cong; [apply lim_alloc|]. intro fe.
      rewrite lim_bind; [|apply mono_eval|intro; apply mono_bind; [apply mono_const|intro; apply mono_body]].
      apply andthen_cong; [reflexivity|]. intro v.
      rewrite lim_bind; [|apply mono_const|intro; apply mono_body].
      apply andthen_cong; [apply lim_modify|]. intros _. apply lim_body. }
  apply E.
Qed.
Print Assumptions c151_too_few_refuted.
Example c54_ex_too_few : go "((lambda (a b . r) (list a)) 1)" = Some (VList [VInt 1] false, []). Proof. vm_compute. reflexivity. Qed.
(* What the body of a procedure called on values sees: each parameter has the
   value of its argument, the rest parameter the list of the others, and every
   other name means what it means in the closure's environment. *)
Fixpoint param_value (xs : list (list Z)) (rest : option (list Z)) (vs : list val) (y : list Z) : option val :=
  match xs, vs with
  | x :: xs, v :: vs => if beq x y then Some v else param_value xs rest vs y
  | [], _ => match rest with Some r => if beq r y then Some (mklist vs) else None | None => None end
  | _ :: _, [] => None
  end.
Definition in_new_frame (st st' : state) (pe : env) : Prop :=
  s_mods st' = s_mods st /\ s_cur st' = s_cur st /\ length (s_frames st') = S (length (s_frames st)) /\
  forall a, (a < length (s_frames st))%nat -> frame_at st' a = frame_at st a.
Lemma search_new st st' c y : Forall (fun a => (a < length (s_frames st))%nat) c ->
  (forall a, (a < length (s_frames st))%nat -> frame_at st' a = frame_at st a) -> search_chain st' c y = search_chain st c y.
Proof. intros F H. induction c as [|a c IH]; [reflexivity|]. inversion F; subst. cbn [search_chain]. rewrite H, IH by auto. reflexivity. Qed.
Lemma mod_search_new st st' m y : s_mods st' = s_mods st -> mod_search st' m y = mod_search st m y.
Proof.
  intro E. unfold mod_search, mod_find, ob_lookup, mod_at. rewrite E.
  assert (U : forall l, uses_lookup st' l y = uses_lookup st l y) by (induction l as [|u l IH]; [reflexivity|]; cbn [uses_lookup]; unfold ob_lookup, mod_at; rewrite E, IH; reflexivity).
  rewrite U. reflexivity.
Qed.
Lemma bind_vals_spec pe st fe : fe = mkEnv (length (s_frames st) :: e_chain pe) (e_mod pe) -> forall xs rest vs st1 st2 u,
  in_new_frame st st1 pe -> NoDup xs -> (forall r, rest = Some r -> ~ In r xs) ->
  (forall x, In x xs -> assoc x (frame_at st1 (length (s_frames st))) = None) ->
  (forall r, rest = Some r -> assoc r (frame_at st1 (length (s_frames st))) = None) ->
  bind_vals fe xs rest vs st1 (Ret u st2) ->
  in_new_frame st st2 pe /\
  forall y, assoc y (frame_at st2 (length (s_frames st))) =
    match param_value xs rest vs y with Some v => Some v | None => assoc y (frame_at st1 (length (s_frames st))) end.
Proof.
  intro FE.
  assert (INS : forall st1 x v, in_new_frame st st1 pe -> assoc x (frame_at st1 (length (s_frames st))) = None ->
    in_new_frame st (env_insert st1 fe x v false) pe /\
    frame_at (env_insert st1 fe x v false) (length (s_frames st)) = (x, v) :: frame_at st1 (length (s_frames st))).
  { intros st1 x v (I1 & I2 & I3 & I4) N. unfold env_insert, search_entry. subst fe. cbn [e_chain firstn search_chain]. rewrite N.
    split.
    - split; [auto|]. split; [auto|]. unfold set_frame, frame_at in *. cbn [s_frames s_mods s_cur]. rewrite upd_length. split; [auto|].
      intros a L. rewrite nth_upd by lia. replace (length (s_frames st) =? a)%nat with false by (symmetry; apply Nat.eqb_neq; lia). auto.
    - unfold set_frame, frame_at. cbn [s_frames]. rewrite nth_upd by lia. rewrite Nat.eqb_refl. reflexivity. }
  induction xs as [|x xs IH]; intros rest vs st1 st2 u I ND NR NX NRB H; cbn [bind_vals] in H.
  - destruct rest as [r|].
    + unfold binds, effect in H. injection H as _ ->. destruct (INS st1 r (mklist vs) I (NRB r eq_refl)) as [J1 J2]. split; auto.
      intro y. rewrite J2. cbn [assoc param_value]. destruct vs; cbn [param_value]; destruct (beq r y); reflexivity.
    + destruct vs; [|unfold raises, err, throw in H; destruct (find_handler _ _ _); discriminate].
      injection H as _ ->. split; auto.
  - destruct vs as [|v vs]; [unfold raises, err, throw in H; destruct (find_handler _ _ _); discriminate|].
    apply (proj1 (andthen_effect _ _ _ _)) in H. destruct (INS st1 x v I (NX x (or_introl eq_refl))) as [J1 J2].
    inversion ND as [|? ? N1 N2]; subst x0 l.
    apply IH in H; auto.
    + destruct H as [H1 H2]. split; auto. intro y. rewrite H2, J2. cbn [param_value assoc].
      destruct (beq_spec x y) as [-> |D]; [|reflexivity].
      assert (PN : param_value xs rest vs y = None).
      { clear - N1 NR. revert vs. induction xs as [|z xs IHx]; intro vs; cbn [param_value].
        - destruct rest as [r|]; [|destruct vs; reflexivity]. assert (NI : ~ In r [y]) by (apply NR; auto).
          destruct vs; (destruct (beq_spec r y) as [E|]; [exfalso; apply NI; cbn; auto|auto]).
        - destruct vs; [reflexivity|]. destruct (beq_spec z y) as [E|]; [exfalso; apply N1; cbn; auto|]. apply IHx.
          + intros r E K. apply (NR r E). cbn in *. destruct K as [K|K]; auto.
          + intro K. apply N1. cbn. auto. }
      now rewrite PN.
    + intros r E K. apply (NR r E). cbn. auto.
    + intros z K. rewrite J2. cbn [assoc]. destruct (beq_spec x z); [subst; contradiction|]. apply NX. cbn. auto.
    + intros r E. rewrite J2. cbn [assoc]. destruct (beq_spec x r); [subst; exfalso; apply (NR r eq_refl); cbn; auto|]. apply NRB; auto.
Qed.
Theorem c54_scope : forall xs rest vs pe st fe st1 st2 y,
  NoDup xs -> (forall r, rest = Some r -> ~ In r xs) -> frames_exist pe st ->
  new_frame pe st (Ret fe st1) -> bind_vals fe xs rest vs st1 (Ret tt st2) ->
  env_search st2 fe y = match param_value xs rest vs y with Some v => Some v | None => env_search st pe y end.
Proof.
  intros xs rest vs pe st fe st1 st2 y ND NR FX N H. unfold new_frame in N. injection N as -> ->.
  assert (I0 : in_new_frame st (mkState (s_frames st ++ [[]]) (s_mods st) (s_cur st) (s_proms st) (s_dyn st)) pe).
  { split; [auto|]. split; [auto|]. cbn. rewrite app_length. cbn. split; [lia|]. intros a L. unfold frame_at. cbn. rewrite app_nth1; auto. }
  assert (EM : frame_at (mkState (s_frames st ++ [[]]) (s_mods st) (s_cur st) (s_proms st) (s_dyn st)) (length (s_frames st)) = []).
  { unfold frame_at. cbn. rewrite app_nth2 by lia. rewrite Nat.sub_diag. reflexivity. }
  eapply bind_vals_spec in H; eauto; [|intros x _; rewrite EM; reflexivity|intros r _; rewrite EM; reflexivity].
  destruct H as [(J1 & J2 & J3 & J4) J5]. specialize (J5 y). rewrite EM in J5. cbn [assoc] in J5.
  inversion FX as [|? ? F0 FC]; subst.
  unfold env_search, env_exist, search_entry. cbn [e_chain e_mod firstn search_chain].
  rewrite J5. destruct (param_value xs rest vs y) as [v|]; [reflexivity|].
  rewrite (search_new st st2 (e_chain pe) y FC J4), J2, (J4 0%nat F0).
  rewrite !(mod_search_new st st2 _ y J1).
  assert (ME : (match e_mod pe with Some m => mod_search st2 m y | None => None end) = (match e_mod pe with Some m => mod_search st m y | None => None end)).
  { destruct (e_mod pe); auto. now rewrite (mod_search_new st st2 _ y J1). }
  rewrite ME. destruct (e_chain pe) as [|a c]; [reflexivity|]. cbn [firstn search_chain].
  destruct (assoc y (frame_at st a)) as [v|]; reflexivity.
Qed.
Print Assumptions c54_scope.
Example c54_ex_scope : let (fe, st1) := make_env st0 g_env in
  match apply_vals (fun _ x => ret x) [VSym (bs "a"); VSym (bs "r")] true [VNil] g_env [VInt 1; VInt 2; VInt 3] false st0 with
  | Ret _ st2 => env_search st2 fe (bs "a") = Some (VInt 1) /\ env_search st2 fe (bs "r") = Some (VList [VInt 2; VInt 3] false) /\
                 env_search st2 fe (bs "car") = env_search st0 g_env (bs "car")
  | _ => False
  end.
Proof. vm_compute. repeat split; reflexivity. Qed.
(* Primitives that do not call back: operands from left to right, then the
   procedure; a wrong number of operands is signalled with the key
   wrong-number-of-args *)
Definition calls_back (nm : list Z) : bool :=
  existsb (beq nm) (map bs ["force"; "eval"; "values"; "catch"; "throw"; "apply"; "map"; "map-in-order"; "call/cc"; "call-with-current-continuation"]).
Lemma lim_prim prim nm ar vs : calls_back nm = false -> (-2 <= ar <= 3)%Z ->
  lim (fun n => call_func prim (eval prim n) n nm ar vs) == prim_run prim nm ar vs.
Proof.
  intros C A. unfold calls_back in C. cbn [map existsb] in C.
  repeat match type of C with (_ || _) = false => apply orb_false_iff in C; let C' := fresh "C" in destruct C as [C' C] end.
  assert (R : forall n, call_func prim (eval prim n) n nm ar vs =
     (if ((ar <? 0) || (Z.of_nat (length vs) =? ar))%Z
      then match prim nm vs with PVal v o => let! _ := modify (emit o) in ret v | PErr => err end
      else wrong_args (VFunc nm ar))).
  { intro n. unfold call_func, is_callcc. rewrite C0, C1, C2, C3, C4, C5, C6, C7, C8, C9. cbn [orb].
    destruct (Z.leb_spec 0 ar); cbn [andb].
    - replace (ar <=? 3)%Z with true by (symmetry; apply Z.leb_le; lia). replace (ar <? 0)%Z with false by (symmetry; apply Z.ltb_ge; lia). reflexivity.
    - replace (ar <? 0)%Z with true by (symmetry; apply Z.ltb_lt; lia). assert (ar = -1 \/ ar = -2)%Z as [-> | ->] by lia; reflexivity. }
  rewrite (lim_ext _ _ (fun n st => f_equal (fun m => m st) (R n))). unfold prim_run. destruct (_ || _).
  - destruct (prim nm vs) as [v out|]; [|apply lim_err].
    rewrite (lim_bind (fun _ => modify (emit out)) (fun _ _ => ret v) (mono_const _) (fun _ => mono_const _)).
    apply andthen_cong; [apply lim_modify|]. intros _. apply lim_ret.
  - intros st o. unfold wrong_args, lim. split; [intros (n & <- & _); auto|intros ->; exists O; split; [auto|apply throw_not_fuel]].
Qed.
Theorem c54_primitive : forall prim e nm ar args st o, calls_back nm = false -> (-2 <= ar <= 3)%Z ->
  (runs prim e (VList (VFunc nm ar :: args) false) st o <->
   (vs <~ args_run prim e args ;; prim_run prim nm ar vs) st o).
Proof.
  intros prim e nm ar args st o C A. rewrite runs_step.
  assert (E : lim (fun n => step prim (eval prim n) n e (VList (VFunc nm ar :: args) false)) ==
     (vs <~ args_run prim e args ;; lim (fun n => call_func prim (eval prim n) n nm ar vs))).
  { transitivity (lim (fun n => ebind (eval_args (eval prim n) e args) (fun vs => call_func prim (eval prim n) n nm ar vs))).
    - apply lim_ext. intros n s. cbn [step]. unfold is_callcc.
      unfold calls_back in C. cbn [map existsb] in C.
      repeat match type of C with (_ || _) = false => apply orb_false_iff in C; let C' := fresh "C" in destruct C as [C' C] end.
      rewrite C5, C6, C7, C8, C9. reflexivity.
    - rewrite lim_bind; [|apply mono_args|intros a n n' L; apply m_func; auto; now apply hev].
      apply andthen_cong; [apply lim_args|reflexivity]. }
  rewrite (E st o). clear E. revert st o. change (?a == ?b) with (a == b). apply andthen_cong; [reflexivity|]. intro vs.
  now apply lim_prim.
Qed.
Print Assumptions c54_primitive.
Example c54_ex_prim : calls_back (bs "cons") = false. Proof. reflexivity. Qed.
Example c54_ex : go "(define (f a b . r) (list a b r)) (f 1 2 3 4)" = Some (VList [VInt 1; VInt 2; VList [VInt 3; VInt 4] false] false, []).
Proof. vm_compute. reflexivity. Qed.
Example c54_ex_count : go "(catch 'error (lambda () ((lambda (a b) a) 1)) (lambda (k . r) k))" = Some (sym "error", []).
Proof. vm_compute. reflexivity. Qed.
