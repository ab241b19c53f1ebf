(** Calls from C++ code, macroexpand, defined?: C178 - C181. *)
From Coq Require Import String Lia Setoid Morphisms.
From Verif Require Import Base ParseModel PrintModel EnvModel EnvSpec EnvProofs EvalModel EvalMono EvalInv EvalInv2 EvalInv3 EvalSpec EvalProofs
  EvalProofs2 EvalProofs3 EvalProofs4 EvalWitness EvalProperties EvalProofs5 EvalProofs6 EvalProofs7 EvalProperties4 ParseProofs2 CallModel CallSpec.
Local Open Scope string_scope.
Local Open Scope list_scope.

(** * C178. Calls from C++ code *)
Lemma mono_host prim f args : monotone (fun n => host_call prim n f args).
Proof.
  intros n n' L. unfold host_call. destruct f; try apply mle_refl.
  - apply m_apply. now apply hev.
  - apply m_func; auto. now apply hev.
Qed.
(* what happens on a procedure: the arguments are evaluated, in the procedure's
   environment *)
Theorem c178_exact : forall prim xs rest body pe args st o, (rest = None \/ (length xs <= length args)%nat) ->
  (calls prim (closure xs rest body pe) args st o <-> call_run prim pe xs rest body pe args st o).
Proof.
  intros prim xs rest body pe args st o L. rewrite <- (lim_apply prim pe xs rest body pe args L st o).
  unfold calls. apply (lim_ext (fun n => host_call prim n (closure xs rest body pe) args)). intros n s. unfold closure. destruct rest; reflexivity.
Qed.
Print Assumptions c178_exact.
Lemma args_self prim e : forall vs, Forall self vs -> args_run prim e vs == returns vs.
Proof.
  induction 1 as [|v vs S F IH]; [reflexivity|]. cbn [args_run]. intros st o.
  etransitivity; [refine (andthen_cong _ _ _ _ (fun st o => runs_const prim e v st o S) (fun v => andthen_cong _ _ _ _ IH (fun ws _ _ => iff_refl _)) st o)|].
  etransitivity; [apply andthen_returns|]. etransitivity; [apply andthen_returns|]. reflexivity.
Qed.
Lemma bind_self prim e fe rest : forall xs vs, Forall self vs -> bind_run prim e fe xs rest vs == bind_vals fe xs rest vs.
Proof.
  induction xs as [|x xs IH]; intros vs F.
  - destruct rest as [r|]; [|reflexivity]. intros st o. cbn [bind_run bind_vals].
    etransitivity; [refine (andthen_cong _ _ _ _ (args_self prim e vs F) (fun ws _ _ => iff_refl _) st o)|]. exact (andthen_returns vs (fun ws => binds fe r (mklist ws)) st o).
  - destruct vs as [|v vs]; [reflexivity|]. inversion F as [|? ? S F']. subst. intros st o. cbn [bind_run bind_vals].
    etransitivity; [refine (andthen_cong _ _ _ _ (fun st o => runs_const prim e v st o S) (fun v _ _ => iff_refl _) st o)|].
    etransitivity; [apply andthen_returns|]. exact (andthen_cong _ _ _ _ (fun _ _ => iff_refl _) (fun _ => IH vs F') st o).
Qed.
(* numbers, strings, booleans, characters, procedures, the empty list ... as
   arguments: the procedure is called on them *)
Theorem c178_closure : forall prim xs rest body pe args st o, Forall self_evaluating args ->
  (rest = None \/ (length xs <= length args)%nat) ->
  (calls prim (closure xs rest body pe) args st o <-> call_vals prim xs rest body pe args st o).
Proof.
  intros prim xs rest body pe args st o F L. rewrite (c178_exact prim xs rest body pe args st o L). unfold call_run, call_vals.
  exact (andthen_cong _ _ _ _ (fun _ _ => iff_refl _) (fun fe => andthen_cong _ _ _ _ (bind_self prim pe fe rest xs args F) (fun _ _ _ => iff_refl _)) st o).
Qed.
Print Assumptions c178_closure.
(* a primitive is called on the arguments as they are *)
Theorem c178_primitive : forall prim nm ar args st o, calls_back nm = false -> (-2 <= ar <= 3)%Z ->
  (calls prim (VFunc nm ar) args st o <-> prim_run prim nm ar args st o).
Proof. intros prim nm ar args st o C A. exact (lim_prim prim nm ar args C A st o). Qed.
Print Assumptions c178_primitive.
(* scm_apply_0 takes the arguments from a list *)
Theorem c178_apply : forall prim f args st o, applies prim f (mklist args) st o <-> calls prim f args st o.
Proof. intros prim f args st o. unfold applies, calls, mklist. destruct args; reflexivity. Qed.
Print Assumptions c178_apply.
Theorem c178_apply_not_list : forall prim f l st o, (forall ns d, l <> VList ns d) -> l <> VNil ->
  (applies prim f l st o <-> raises st o).
Proof.
  intros prim f l st o N1 N2. rewrite <- (lim_err st o). apply (lim_ext (fun n => host_apply prim n f l)). intros n s.
  destruct l; try reflexivity; [congruence|now destruct (N1 ns dotted)].
Qed.
Print Assumptions c178_apply_not_list.
(* anything that is neither a procedure nor a primitive is an error - a
   continuation too *)
Theorem c178_not_procedure : forall prim f args st o,
  match f with VProc _ _ _ _ | VFunc _ _ => False | _ => True end -> (calls prim f args st o <-> raises st o).
Proof.
  intros prim f args st o N. rewrite <- (lim_err st o). apply (lim_ext (fun n => host_call prim n f args)). intros n s.
  destruct f; try reflexivity; contradiction.
Qed.
Print Assumptions c178_not_procedure.

(* the examples: (define (sub a b) (- a b)) called on 10 and 3; (lambda x x) on 1 2 3 *)
Definition out_val (o : out val) : option val := match o with Ret v _ => Some v | _ => None end.
Definition glob (s : string) (st : state) : val := match env_search st g_env (bs s) with Some v => v | None => VNone end.
Definition call_ex (setup f : string) (args : list val) : option val := let st := final setup in out_val (host_call prim0 100 (glob f st) args st).
Example c178_ex1 : call_ex "(define (sub a b) (- a b))" "sub" [VInt 10; VInt 3] = Some (VInt 7).
Proof. vm_compute. reflexivity. Qed.
Example c178_ex2 : call_ex "(define f (lambda x (cdr x)))" "f" [VInt 1; VInt 2; VInt 3] = Some (VList [VInt 2; VInt 3] false).
Proof. vm_compute. reflexivity. Qed.
Example c178_ex3 : call_ex "1" "car" [VList [VInt 1; VInt 2] false] = Some (VInt 1).
Proof. vm_compute. reflexivity. Qed.

(** * C179. A call from C++ code passes its arguments unchanged: refuted *)
(* the identity procedure, called on the symbol y, returns the value of the
   variable y; called on the list (+ 1 2) it returns 3 *)
Definition id_proc : val := closure [bs "x"] None [sym "x"] g_env.
Theorem c179_refuted : ~ (forall prim xs rest body pe args st o, length args = length xs -> rest = None ->
  (calls prim (closure xs rest body pe) args st o <-> call_vals prim xs rest body pe args st o)).
Proof.
  intro H. pose (st := final "(define y 5)").
  assert (C : calls prim0 id_proc [sym "y"] st (host_call prim0 100 id_proc [sym "y"] st)).
  { exists 100%nat. split; [reflexivity|]. intro K. assert (B : match host_call prim0 100 id_proc [sym "y"] st with OFuel => false | _ => true end = true) by (vm_compute; reflexivity). rewrite K in B. discriminate B. }
  assert (R : match host_call prim0 100 id_proc [sym "y"] st with Ret (VInt z) _ => Z.eqb z 5 | _ => false end = true) by (vm_compute; reflexivity).
  apply (H prim0 [bs "x"] None [sym "x"] g_env [sym "y"] st _ eq_refl eq_refl) in C.
  destruct (host_call prim0 100 id_proc [sym "y"] st) as [v s|i k a s|k v s|s| | |] eqn:E in R, C; try discriminate R.
  unfold call_vals in C. rewrite andthen_new in C.
  set (fe := mkEnv _ _) in C. set (st1 := snd _) in C. cbn [bind_vals] in C.
  rewrite (andthen_assoc _ _ _ _ _) in C.
  unfold binds in C. rewrite andthen_effect in C. rewrite (andthen_returns tt _ _ _) in C. cbn [body_run] in C.
  destruct C as (n & C & _). destruct n as [|n]; [discriminate C|].
  assert (X : eval prim0 (S n) fe (sym "x") (env_insert st1 fe (bs "x") (sym "y") false) =
              match env_search (env_insert st1 fe (bs "x") (sym "y") false) fe (bs "x") with Some v => Ret v (env_insert st1 fe (bs "x") (sym "y") false) | None => err (env_insert st1 fe (bs "x") (sym "y") false) end).
  { cbn [eval step sym]. unfold lookup, ebind, gets. replace (match bs "x" with [] => false | c :: _ => (c =? 58)%Z end) with false by reflexivity. destruct (env_search _ _ _); reflexivity. }
  rewrite X in C.
  assert (Y : match env_search (env_insert st1 fe (bs "x") (sym "y") false) fe (bs "x") with Some (VSym s) => beq s (bs "y") | _ => false end = true) by (vm_compute; reflexivity).
  destruct (env_search (env_insert st1 fe (bs "x") (sym "y") false) fe (bs "x")) as [w|]; [|discriminate Y].
  assert (V : w = v) by (clear - C; inversion C; reflexivity). subst v. destruct w; try discriminate Y. discriminate R.
Qed.
Print Assumptions c179_refuted.
Example c179_symbol : call_ex "(define (id x) x) (define y 5)" "id" [sym "y"] = Some (VInt 5).
Proof. vm_compute. reflexivity. Qed.
Example c179_code : call_ex "(define (id x) x)" "id" [VList [sym "+"; VInt 1; VInt 2] false] = Some (VInt 3).
Proof. vm_compute. reflexivity. Qed.
Example c179_data : call_ex "(define (id x) x)" "id" [VList [VList [VInt 1] false; VInt 2] false] = None.
Proof. vm_compute. reflexivity. Qed.
(* apply, map and call/cc cannot be called from C++ code at all *)
Theorem c179_callbacks_refuted : forall prim nm ar args st o,
  beq nm (bs "apply") || beq nm (bs "map") || beq nm (bs "map-in-order") || is_callcc nm = true -> (ar = -1 \/ ar = -2 \/ (0 <= ar <= 3 /\ Z.of_nat (length args) = ar))%Z ->
  (calls prim (VFunc nm ar) args st o <-> raises st o).
Proof.
  intros prim nm ar args st o N A. rewrite <- (lim_err st o). apply (lim_ext (fun n => host_call prim n (VFunc nm ar) args)). intros n s.
  assert (D : beq nm (bs "force") = false /\ beq nm (bs "eval") = false /\ beq nm (bs "values") = false /\ beq nm (bs "catch") = false /\ beq nm (bs "throw") = false).
  { assert (E : forall t, beq nm t = true -> nm = t) by (intro t; apply beq_iff).
    assert (K : nm = bs "apply" \/ nm = bs "map" \/ nm = bs "map-in-order" \/ is_callcc nm = true).
    { apply orb_prop in N. destruct N as [N|N]; [|auto]. apply orb_prop in N. destruct N as [N|N]; [|auto]. apply orb_prop in N. destruct N as [N|N]; auto. }
    unfold is_callcc in K. destruct K as [->|[->|[->|K]]]; try (repeat split; reflexivity).
    apply orb_prop in K. destruct K as [K|K]; apply E in K; subst nm; repeat split; reflexivity. }
  destruct D as (D1 & D2 & D3 & D4 & D5). unfold host_call, call_func. rewrite D1, D2, D3, D4, D5, N. destruct A as [-> |[-> |[A1 A2]]]; [reflexivity|reflexivity|].
  rewrite <- A2, Z.eqb_refl. rewrite A2. destruct (Z.leb_spec 0 ar); [|lia]. destruct (Z.leb_spec ar 3); [|lia]. reflexivity.
Qed.
Print Assumptions c179_callbacks_refuted.

(** * C180. macroexpand-1, macroexpand and defined? *)
Lemma mono_exp1 prim x : monotone (fun n => macroexpand_1 prim n x).
Proof.
  intros n n' L. unfold macroexpand_1. destruct x as [| | | | | | |l d| | | | | | |]; try apply mle_refl. destruct l as [|h t]; try apply mle_refl. destruct h; try apply mle_refl.
  apply mle_bind; [apply mle_refl|]. intro v. destruct v as [v|]; [|apply mle_refl]. destruct v; try apply mle_refl. apply m_expand_call. now apply hev.
Qed.
(* macroexpand-1 on a call of a macro: the result of its transformer on the
   operands, not evaluated *)
Theorem c180_once : forall prim s ops d xs rest body me st o, env_search st g_env s = Some (macro xs rest body me) ->
  (rest = None \/ (length xs <= length ops)%nat) ->
  (expands_1 prim (VList (VSym s :: ops) d) st o <-> call_vals prim xs rest body me ops st o).
Proof.
  intros prim s ops d xs rest body me st o E L. rewrite <- (lim_expand prim xs rest body me ops L st o). unfold expands_1, lim.
  assert (X : forall n, macroexpand_1 prim n (VList (VSym s :: ops) d) st = expand_call (eval prim n) (pars xs rest) (isrest rest) body me ops st).
  { intro n. unfold macroexpand_1, ebind, gets. rewrite E. unfold macro. destruct rest; reflexivity. }
  split; intros (n & K & F); exists n; (split; [|exact F]); [rewrite <- X|rewrite X]; exact K.
Qed.
Print Assumptions c180_once.
Lemma is_call_spec st x : is_call st x = true <-> macro_call st x.
Proof.
  unfold macro_call. split.
  - destruct x as [| | | | | | |l d| | | | | | |]; try discriminate. destruct l as [|h t]; try discriminate. destruct h; try discriminate.
    cbn [is_call]. destruct (env_search st g_env n) as [v|] eqn:E; [|discriminate]. intro M. exists n, t, d, v. auto.
  - intros (s & t & d & v & -> & E & M). cbn [is_call]. rewrite E. exact M.
Qed.
(* anything else is its own expansion, and nothing happens *)
Lemma exp1_other prim n x st : ~ macro_call st x -> macroexpand_1 prim n x st = Ret x st.
Proof.
  intro N. assert (B : is_call st x = false) by (destruct (is_call st x) eqn:K; [apply is_call_spec in K; contradiction|reflexivity]).
  destruct x as [| | | | | | |l d| | | | | | |]; try reflexivity. destruct l as [|h t]; try reflexivity. destruct h; try reflexivity.
  cbn [is_call] in B. unfold macroexpand_1, ebind, gets. destruct (env_search st g_env n0) as [v|]; [|reflexivity]. destruct v; try reflexivity. discriminate B.
Qed.
Theorem c180_other : forall prim x st o, ~ macro_call st x -> (expands_1 prim x st o <-> returns x st o) /\ (expands prim x st o <-> returns x st o).
Proof.
  intros prim x st o N. split.
  - split; [intros (n & K & _); rewrite exp1_other in K by auto; symmetry; exact K|]. intros ->. exists 0%nat. split; [now apply exp1_other|discriminate].
  - assert (B : is_call st x = false) by (destruct (is_call st x) eqn:K; [apply is_call_spec in K; contradiction|reflexivity]).
    unfold expands, macroexpand. split.
    + intros (n & K & F). destruct n as [|n]; cbn [macroexpand_loop] in K; [unfold fuel in K; subst o; contradiction|].
      unfold ebind, gets in K. rewrite B in K. symmetry. exact K.
    + intros ->. exists 1%nat. split; [|discriminate]. cbn [macroexpand_loop]. unfold ebind, gets. rewrite B. reflexivity.
Qed.
Print Assumptions c180_other.
Lemma mono_loop prim : forall k k' n n' x, (k <= k')%nat -> (n <= n')%nat -> mle (macroexpand_loop prim n k x) (macroexpand_loop prim n' k' x).
Proof.
  induction k as [|k IH]; intros k' n n' x K L; [intro st; left; reflexivity|]. destruct k' as [|k']; [lia|]. cbn [macroexpand_loop].
  apply mle_bind; [apply mle_refl|]. intro b. destruct b; [|apply mle_refl]. apply mle_bind; [now apply mono_exp1|]. intro y. apply IH; lia.
Qed.
(* macroexpand repeats that until no call of a macro is left *)
Theorem c180_all : forall prim x st y st', expands prim x st (Ret y st') <-> expansions prim x st y st' /\ ~ macro_call st' y.
Proof.
  intros prim x st y st'. split.
  - intros (n & K & _). unfold macroexpand in K. remember n as k eqn:Ek in K at 2. clear Ek. revert x st K.
    induction k as [|k IH]; intros x st K; [discriminate K|]. cbn [macroexpand_loop] in K. unfold ebind at 1 in K. unfold gets in K.
    destruct (is_call st x) eqn:B.
    + unfold ebind in K. destruct (macroexpand_1 prim n x st) as [z s1| | | | | |] eqn:E; try discriminate K.
      destruct (IH z s1 K) as [G N]. split; [|exact N]. apply is_call_spec in B. eapply ex_more; [exact B| |exact G]. exists n. split; [exact E|discriminate].
    + assert (X : x = y /\ st = st') by (clear - K; inversion K; auto). destruct X as [-> ->]. split; [constructor|].
      intro M. apply is_call_spec in M. congruence.
  - intros [G N]. induction G as [x st|x st z s1 w s2 M E G IH].
    + apply (c180_other prim x st _ N). reflexivity.
    + destruct (IH N) as (n1 & K1 & _). destruct E as (n2 & K2 & _). exists (S (Nat.max n1 n2)). split; [|discriminate].
      unfold macroexpand. cbn [macroexpand_loop]. unfold ebind at 1, gets. apply is_call_spec in M. rewrite M. unfold ebind.
      assert (E2 : macroexpand_1 prim (S (Nat.max n1 n2)) x st = Ret z s1).
      { pose proof (mono_exp1 prim x n2 (S (Nat.max n1 n2)) ltac:(lia) st) as [G2|G2]; congruence. }
      rewrite E2. unfold macroexpand in K1.
      pose proof (mono_loop prim n1 (Nat.max n1 n2) n1 (S (Nat.max n1 n2)) z ltac:(lia) ltac:(lia) s1) as [G2|G2]; congruence.
Qed.
Print Assumptions c180_all.
(* what evaluation does with a call of a top-level macro is to evaluate its expansion *)
Theorem c180_agrees : forall prim m ops d xs rest body me st h t dd st1 o,
  env_exist st g_env m = Some (macro xs rest body me) -> (rest = None \/ (length xs <= length ops)%nat) ->
  expands_1 prim (VList (VSym m :: ops) d) st (Ret (VList (h :: t) dd) st1) -> no_macros g_env st1 (VList (h :: t) dd) ->
  (t <> [] \/ match h with VSym _ | VList _ _ => True | _ => False end) ->
  (runs prim g_env (VList (VSym m :: ops) d) st o <-> runs prim g_env (VList (h :: t) dd) st1 o).
Proof.
  intros prim m ops d xs rest body me st h t dd st1 o E L X N S.
  assert (ES : env_search st g_env m = Some (macro xs rest body me)) by (unfold env_search; rewrite E; reflexivity).
  assert (EH : head_value st g_env m = Some (macro xs rest body me)) by (unfold head_value; rewrite E; reflexivity).
  apply (c180_once prim m ops d xs rest body me st _ ES L) in X.
  exact (c63_expansion prim g_env m ops d xs rest body me st h t dd st1 o EH L X N S).
Qed.
Print Assumptions c180_agrees.
(* defined? is true of a symbol if and only if a reference to it at the top level
   finds a value *)
Theorem c180_defined : forall s st, (exists b, defined (VSym s) st = Ret (VBool b) st /\ (b = true <-> exists v, env_search st g_env s = Some v)).
Proof.
  intros s st. unfold defined, ebind, gets, env_search, env_exist. cbn [g_env e_mod].
  set (A := search_entry st g_env s true). set (B := mod_search st (s_cur st) s).
  eexists. split; [reflexivity|].
  assert (F : search_entry st g_env s false = A) by (unfold A, search_entry; cbn; reflexivity).
  rewrite F. destruct A as [[a v]|] eqn:EA.
  - split; [intros _; exists v; reflexivity|auto].
  - destruct B as [v|]; [split; [intros _; exists v; reflexivity|auto]|]. split; [discriminate|]. intros [v K].
    unfold A, search_entry in EA. cbn [g_env e_chain search_chain] in EA.
    destruct (assoc s (frame_at st 0)) as [w|]; [discriminate EA|discriminate K].
Qed.
Print Assumptions c180_defined.
Definition expand_ex (all : bool) (setup x : string) : option val :=
  let st := final setup in out_val ((if all then macroexpand prim0 100 (expr x) else macroexpand_1 prim0 100 (expr x)) st).
Definition when_ : string := "(define-macro (my-when c . b) `(if ,c (begin ,@b) #f)) (define-macro (twice x y) `(my-when #t ,x ,y))".
Example c180_ex1 : (expand_ex false when_ "(twice (f) (g))", expand_ex true when_ "(twice (f) (g))", expand_ex true when_ "(list (twice 1 2))") =
  (Some (expr "(my-when #t (f) (g))"), Some (expr "(if #t (begin (f) (g)) #f)"), Some (expr "(list (twice 1 2))")).
Proof. vm_compute. reflexivity. Qed.
Example c180_ex2 : (match defined (sym "car") st0 with Ret (VBool b) _ => Some b | _ => None end,
                    match defined (sym "xyz") st0 with Ret (VBool b) _ => Some b | _ => None end) = (Some true, Some false).
Proof. vm_compute. reflexivity. Qed.

(** * C181. A call of a macro means its expansion: refuted *)
(* a macro that expands to a variable: the call returns the symbol *)
Theorem c181_symbol_refuted : forall prim e m ops d xs rest body me st s st1 o,
  head_value st e m = Some (macro xs rest body me) -> (rest = None \/ (length xs <= length ops)%nat) ->
  call_vals prim xs rest body me ops st (Ret (VSym s) st1) ->
  (runs prim e (VList (VSym m :: ops) d) st o <-> o = Ret (VSym s) st1).
Proof.
  intros prim e m ops d xs rest body me st s st1 o H L C.
  rewrite (runs_macro prim e m ops d xs rest body me st o H L).
  assert (U : forall o1, call_vals prim xs rest body me ops st o1 -> o1 = Ret (VSym s) st1).
  { intros o1 K. apply (lim_expand prim xs rest body me ops L st) in K, C. destruct K as (n & E & NF), C as (n2 & E2 & _).
    assert (MX : monotone (fun n => expand_call (eval prim n) (pars xs rest) (isrest rest) body me ops)) by (intros p q K; apply m_expand_call; now apply hev).
    pose proof (MX n (Nat.max n n2) ltac:(lia) st) as [G|G]; [congruence|]. pose proof (MX n2 (Nat.max n n2) ltac:(lia) st) as [G2|G2]; congruence. }
  assert (F : forall o, finish prim e (VSym s) st1 o <-> o = Ret (VSym s) st1).
  { intro o1. rewrite (finish_id prim e (VSym s) st1 o1 Logic.I). exact (after_other prim e (VSym s) Logic.I st1 o1). }
  split.
  - intros [(y & s1 & A & B)|(o1 & A & B)]; apply U in A.
    + assert (X : y = VSym s /\ s1 = st1) by (inversion A; auto). destruct X as [-> ->]. now apply F.
    + subst o1. inversion B.
  - intros ->. left. exists (VSym s), st1. split; [exact C|]. now apply F.
Qed.
Print Assumptions c181_symbol_refuted.
Example c181_ex1 : go "(define x 5) (define-macro (m y) 'x) (m 1)" = Some (sym "x", []).
Proof. vm_compute. reflexivity. Qed.
(* constants inside an expansion are searched for macro calls too *)
Example c181_ex2 : go "(define-macro (m2 . x) 7) (define-macro (m . x) (list 'quote (list 'm2 1))) (m)" = Some (VInt 7, []).
Proof. vm_compute. reflexivity. Qed.
Theorem c181_quoted_refuted : ~ (forall prim m ops d xs rest body me st dat st1,
  env_exist st g_env m = Some (macro xs rest body me) -> rest = None -> length xs = length ops ->
  expands_1 prim (VList (VSym m :: ops) d) st (Ret (quoted dat) st1) ->
  runs prim g_env (VList (VSym m :: ops) d) st (Ret dat st1)).
Proof.
  intro H. pose (st := final "(define-macro (m2 . x) 7) (define-macro (m x y) (list 'quote (list 'm2 1)))").
  pose (dat := VList [sym "m2"; VInt 1] false). pose (b := [expr "(list 'quote (list 'm2 1))"]). pose (xs := [bs "x"; bs "y"]).
  pose (x := VList [sym "m"; VInt 1; VInt 2] false).
  assert (E : env_exist st g_env (bs "m") = Some (macro xs None b g_env)) by (vm_compute; reflexivity).
  assert (X : match macroexpand_1 prim0 20 x st with Ret v _ => Some v | _ => None end = Some (quoted dat)) by (vm_compute; reflexivity).
  destruct (macroexpand_1 prim0 20 x st) as [v s1| | | | | |] eqn:EX; try discriminate X. apply (f_equal (fun o => match o with Some w => w | None => v end)) in X. cbn beta iota in X. subst v.
  specialize (H prim0 (bs "m") [VInt 1; VInt 2] false xs None b g_env st dat s1 E eq_refl eq_refl).
  destruct H as (n & R & _). { exists 20%nat. split; [exact EX|discriminate]. }
  assert (Y : match eval prim0 40 g_env x st with Ret (VInt 7) _ => true | _ => false end = true) by (vm_compute; reflexivity).
  destruct (eval prim0 40 g_env x st) as [v s2| | | | | |] eqn:EY; try discriminate Y.
  assert (R2 : runs prim0 g_env x st (Ret v s2)) by (exists 40%nat; split; [exact EY|discriminate]).
  assert (R1 : runs prim0 g_env x st (Ret dat s1)) by (exists n; split; [exact R|discriminate]).
  pose proof (runs_det prim0 g_env x st _ _ R2 R1) as Z.
  assert (V : v = dat) by (clear - Z; inversion Z; reflexivity).
  subst v. discriminate Y.
Qed.
Print Assumptions c181_quoted_refuted.
