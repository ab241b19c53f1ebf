(** C212.  What the host gets back when it loads a program of integer functions
    and asks for values: the text is parsed, evaluated in the interpreter's
    environments and the answers are those of the rules of LangSpec. *)
From Coq Require Import String Lia.
From Verif Require Import Base NumModel NumSpec ParseModel ParseSpec PrintModel ParseProperties EnvModel EvalModel ApiModel
  LangSpec LangProofs LangProofs2 LangProofs3 EvalWitness.
Local Open Scope string_scope.
Local Open Scope Z_scope.
Local Open Scope list_scope.

Lemma does_strings prim (texts : list (list Z)) xs : Forall2 (fun t x => exists d, parse t = Ok d /\ program d = Some x) texts xs ->
  Forall2 (does prim) (map (fun t n s => pscm_eval_string prim n t s) texts) xs.
Proof. induction 1 as [|t x ts xs (d & A & B) _ IH]; cbn [map]; constructor; auto. intros s R. eapply string_runs; eauto. Qed.

(** The texts of the definitions, then the texts of the expressions, one call of
    pscm_eval_string each: from some depth of the C stack on, the answers are
    those of the rules, in order.  An expression that signals an error answers
    NULL, sets the last error key to error, and does not disturb the ones that follow. *)
Theorem c212_session : forall prim s P es ws, numeric prim -> ready s ->
  Forall wf_fn P -> NoDup (map f_name P) -> Forall (unbound s) (map f_name P) ->
  Forall wf es -> Forall2 (ev P (unbound s) []) es ws ->
  exists N s', (forall n, (N <= n)%nat ->
      session prim n (map show_fn P ++ map show es) s = Some (repeat (Some VNone) (length P) ++ map answer ws, s')) /\
    (In None ws -> a_key s' = Some (bs "error")) /\ (~ In None ws -> a_key s' = a_key s).
Proof.
  intros prim s P es ws HN R WP ND F WE E.
  destruct (all_steps prim HN (unbound s) P es ws (map (fun t n s => pscm_eval_string prim n t s) (map show_fn P))
    (map (fun t n s => pscm_eval_string prim n t s) (map show es)) s WP ND F WE (inv_start s R) E) as (N & s' & H & K).
  { apply does_strings. clear - WP. induction WP as [|d P W _ IH]; cbn [map]; constructor; auto. exists (datum_fn d). split; [now apply read_fn|apply program_fn]. }
  { apply does_strings. clear - WE. induction WE as [|e es W _ IH]; cbn [map]; constructor; auto. exists (datum e). split; [now apply read_exp|apply program_code]. }
  exists N, s'. split.
  - intros n Hn. rewrite session_seq, map_app. now apply H.
  - rewrite K. unfold key_after. destruct (existsb _ ws) eqn:X.
    + split; [reflexivity|]. intros NI. apply existsb_exists in X as ([z|] & I & Q); [discriminate|contradiction].
    + split; [|reflexivity]. intros I. assert (existsb (fun w : option Z => match w with None => true | Some _ => false end) ws = true) by (apply existsb_exists; exists None; auto). congruence.
Qed.
Print Assumptions c212_session.

(** One file with the definitions and the expressions, separated by spaces, given
    to pscm_eval_file: the answer is that of the last expression. *)
Theorem c212_file : forall prim s P es ws e w, numeric prim -> ready s ->
  Forall wf_fn P -> NoDup (map f_name P) -> Forall (unbound s) (map f_name P) ->
  Forall wf (es ++ [e]) -> Forall2 (ev P (unbound s) []) (es ++ [e]) (ws ++ [w]) ->
  exists N s', forall n, (N <= n)%nat ->
    pscm_eval_file prim n (Some (spaced (map show_fn P ++ map show (es ++ [e])))) s = AOk (answer w) s'.
Proof.
  intros prim s P es ws e w HN R WP ND F WE E.
  assert (G : forall xs, Forall2 (does prim) (map (fun x n s => pscm_eval prim n x s) xs) xs).
  { induction xs; cbn [map]; constructor; auto. intros st L. apply eval_runs. lia. }
  destruct (all_steps prim HN (unbound s) P _ _ _ _ s WP ND F WE (inv_start s R) E (G _) (G _)) as (N & s' & H & _).
  exists N, s'. intros n Hn. specialize (H n Hn). rewrite <- map_app in H. pose proof (eval_all_seq _ _ _ None _ _ _ H) as A.
  rewrite (map_app answer), app_assoc in A. cbn [map] in A. rewrite last_last in A.
  unfold pscm_eval_file. set (ds := map datum_fn P ++ map datum (es ++ [e])).
  assert (T : parse_all (spaced (map show_fn P ++ map show (es ++ [e]))) = Ok ds).
  { assert (Pl : Forall plain ds).
    { unfold ds. apply Forall_app. split; apply Forall_map; [eapply Forall_impl; [|exact WP]; intros; now apply plain_fn|].
      eapply Forall_impl; [|exact WE]. intros; now apply plain_exp. }
    assert (Q : map show_fn P ++ map show (es ++ [e]) = map (write_datum pf1) ds).
    { unfold ds. rewrite !map_app, !map_map. f_equal; [|f_equal].
      - apply map_ext_in. intros d I. symmetry. apply write_fn. rewrite Forall_forall in WP. auto.
      - apply map_ext_in. intros d I. symmetry. apply write_exp. rewrite Forall_forall in WE. apply WE, in_or_app. auto.
      - cbn [map]. rewrite write_exp; [reflexivity|]. rewrite Forall_forall in WE. apply WE, in_or_app. right. now left. }
    rewrite Q. destruct ds as [|d l] eqn:D.
    - apply (f_equal (@length _)) in D. unfold ds in D. rewrite app_length, !map_length, app_length in D. cbn in D. lia.
    - cbn [map spaced]. rewrite <- (c32_sequence pf1 d l Pl). do 2 f_equal. clear. induction l as [|x l IH]; cbn; [reflexivity|]. now rewrite IH. }
  rewrite T.
  assert (PR : programs ds = Some (map code_fn P ++ map code (es ++ [e]))).
  { unfold ds. clear. induction P as [|d P IH]; cbn [map app programs].
    - induction (es ++ [e]) as [|x l IH]; cbn [map programs]; [reflexivity|]. now rewrite program_code, IH.
    - now rewrite program_fn, IH. }
  now rewrite PR.
Qed.
Print Assumptions c212_file.

(** The rules give an expression one outcome, so there is only one answer the
    interpreter can give. *)
Lemma same_def P d d' : NoDup (map f_name P) -> In d P -> In d' P -> f_name d = f_name d' -> d = d'.
Proof.
  induction P as [|x P IH]; intros ND; [intros []|]. cbn [map] in ND. inversion ND; subst. intros [->|I] [->|I'] Q; auto.
  - elim H1. rewrite Q. now apply in_map.
  - elim H1. rewrite <- Q. now apply in_map.
Qed.
Lemma one_answer P free : NoDup (map f_name P) ->
  (forall r e w, ev P free r e w -> forall w', ev P free r e w' -> w = w') /\
  (forall r es w, evs P free r es w -> forall w', evs P free r es w' -> w = w').
Proof.
  intros ND.
  assert (DD : forall d d', In d P -> In d' P -> f_name d = f_name d' -> d = d') by (intros; eapply same_def; eauto).
  assert (UN : forall d, In d P -> unknown P free (f_name d) -> False) by (intros d I (_ & U); apply U; now apply in_map).
  assert (FA : forall d es (vs : list Z), evs P free d es (Some vs) -> length es = length vs) by (intros; eapply evs_length; eauto).
  apply ev_evs_min; intros; try match goal with E : ev _ _ _ _ ?w' |- _ = ?w' => inversion E; subst | E : evs _ _ _ _ ?w' |- _ = ?w' => inversion E; subst end;
    repeat (match goal with
    | IH : (forall w', ev _ _ ?r ?e w' -> _ = w'), H : ev _ _ ?r ?e _ |- _ =>
        let E := fresh in pose proof (IH _ H) as E; lazymatch type of E with ?x = ?x => fail | _ => clear IH end
    | IH : (forall w', evs _ _ ?r ?e w' -> _ = w'), H : evs _ _ ?r ?e _ |- _ =>
        let E := fresh in pose proof (IH _ H) as E; lazymatch type of E with ?x = ?x => fail | _ => clear IH end
    | I : In ?d P, J : In ?d2 P, Q : f_name ?d2 = f_name ?d |- _ => assert (d2 = d) by (apply DD; auto); subst d2; clear Q
    | H : Some _ = Some _ |- _ => injection H as H; subst
    end; try discriminate; subst); try reflexivity; try congruence;
    try (exfalso; match goal with
    | D : divides ?o, H : divides ?o -> _ |- _ => now elim H
    | I : In ?d P, U : unknown _ _ (f_name ?d) |- _ => exact (UN d I U)
    | E : evs _ _ _ ?args (Some ?vs), L : length ?vs = length (f_params ?d) |- _ =>
        let A := fresh in assert (A : length args = length (f_params d)) by (rewrite <- L; eauto);
        try contradiction; rewrite firstn_all2 in * by lia;
        match goal with IH : (forall w', evs _ _ _ _ w' -> _ = w') |- _ => first [discriminate (IH _ E)|match goal with H : evs _ _ _ _ None |- _ => discriminate (IH _ H) end] end
    end).
Qed.
Theorem c212_one_answer : forall P free r e w1 w2, NoDup (map f_name P) ->
  ev P free r e w1 -> ev P free r e w2 -> w1 = w2.
Proof. intros P free r e w1 w2 ND E1 E2. exact (proj1 (one_answer P free ND) _ _ _ E1 _ E2). Qed.
Print Assumptions c212_one_answer.

(** The premises are met: the primitives of number.cc on integers, the initial
    state of EvalWitness with the operators bound as init_number binds them, and
    the program of factorial and of Ackermann's function. *)
Definition num_of (r : res nval) : pres :=
  match r with Ok (NumModel.VInt z) => PVal (VInt z) [] | Ok (NumModel.VBool b) => PVal (VBool b) [] | _ => PErr end.
Definition prim212 (nm : list Z) (vs : list val) : pres :=
  match vs with
  | [VInt x; VInt y] =>
      match find (fun o => beq nm (op_name o)) [OAdd; OSub; OMul; OQuo; ORem; OMod] with
      | Some o => num_of (num_op o x y)
      | None => match find (fun r => beq nm (rel_name r)) [REq; RLt; RGt; RLe; RGe] with Some r => num_of (num_rel r x y) | None => PErr end
      end
  | _ => PErr
  end.
Lemma numeric212 : numeric prim212.
Proof.
  assert (A : forall o x y, prim212 (op_name o) [VInt x; VInt y] = num_of (num_op o x y)) by (destruct o; reflexivity).
  assert (B : forall r x y, prim212 (rel_name r) [VInt x; VInt y] = num_of (num_rel r x y)) by (destruct r; reflexivity).
  constructor; intros; rewrite ?A, ?B; now rewrite H.
Qed.
Definition globals212 : list (list Z * val) :=
  map (fun o => (op_name o, VFunc (op_name o) (op_arity o))) [OAdd; OSub; OMul; OQuo; ORem; OMod] ++
  map (fun r => (rel_name r, VFunc (rel_name r) (-2))) [REq; RLt; RGt; RLe; RGe].
Definition api212 : api := mkApi (mkState [globals212] [mkMod [] [] [] None] 0 [] dyn0) None None.
Lemma ready212 : ready api212.
Proof.
  constructor; try discriminate.
  - cbn. lia.
  - reflexivity.
  - now destruct o.
  - now destruct r.
  - intros k v I A. cbn in I. decompose [or] I; try contradiction; subst; discriminate A.
Qed.
Definition fact212 : fn :=
  Fn (bs "fact") [bs "n"] (If REq (Var (bs "n")) (Num 0) (Num 1)
    (Bin OMul (Var (bs "n")) (Call (bs "fact") [Bin OSub (Var (bs "n")) (Num 1)]))).
Example c212_text : show_fn fact212 = bs "(define (fact n) (if (= n 0) 1 (* n (fact (- n 1)))))".
Proof. reflexivity. Qed.
Definition ack212 : fn :=
  Fn (bs "ack") [bs "m"; bs "n"] (If REq (Var (bs "m")) (Num 0) (Bin OAdd (Var (bs "n")) (Num 1))
    (Let (bs "k") (Bin OSub (Var (bs "m")) (Num 1))
      (If REq (Var (bs "n")) (Num 0) (Call (bs "ack") [Var (bs "k"); Num 1])
        (Call (bs "ack") [Var (bs "k"); Call (bs "ack") [Var (bs "m"); Bin OSub (Var (bs "n")) (Num 1)]])))).
(* the session runs: values, a division by zero, an unbound variable, a wrong count, and a value again *)
Example c212_runs :
  option_map fst (session prim212 200 (map show_fn [fact212; ack212] ++
    map show [Call (bs "fact") [Num 10]; Bin OQuo (Num 1) (Num 0); Var (bs "nobody"); Call (bs "fact") []; Call (bs "ack") [Num 2; Num 3];
              Bin OMod (Num (-7)) (Num 2)]) api212) =
  Some [Some VNone; Some VNone; Some (VInt 3628800); None; None; None; Some (VInt 9); Some (VInt 1)].
Proof. vm_compute. reflexivity. Qed.
(* and the rules say so of every factorial that fits *)
Fixpoint zfact (n : nat) : Z := match n with O => 1 | S k => Z.of_nat n * zfact k end.
Lemma zfact_pos n : 0 < zfact n. Proof. induction n as [|n IH]; cbn [zfact]; [lia|]. apply Z.mul_pos_pos; lia. Qed.
Lemma zfact_small n k : (n <= k)%nat -> zfact n <= zfact k.
Proof.
  induction 1 as [|k L IH]; [lia|]. cbn [zfact]. pose proof (zfact_pos k). nia.
Qed.
Lemma fact_body free n : (n <= 20)%nat -> ev [fact212] free [(bs "n", Z.of_nat n)] (f_body fact212) (Some (zfact n)).
Proof.
  assert (B20 : zfact 20 < 2 ^ 63) by (vm_compute; reflexivity).
  induction n as [|n IH]; intros L.
  - apply (ev_if _ _ _ _ _ _ _ _ 0 0); [now apply ev_var|apply ev_num|]. apply (ev_num _ _ _ 1).
  - pose proof (zfact_small (S n) 20 L) as SM. pose proof (zfact_pos (S n)).
    apply (ev_if _ _ _ _ _ _ _ _ (Z.of_nat (S n)) 0); [now apply ev_var|apply ev_num|].
    replace (holds REq (Z.of_nat (S n)) 0) with false by (symmetry; apply Z.eqb_neq; lia).
    change (zfact (S n)) with (arith OMul (Z.of_nat (S n)) (zfact n)). apply ev_bin.
    + now apply ev_var.
    + apply (ev_call _ _ _ _ _ fact212 [Z.of_nat n]); try reflexivity; [now left| |apply IH; lia].
      apply evs_cons; [|constructor]. replace (Z.of_nat n) with (arith OSub (Z.of_nat (S n)) 1) by (cbn [arith]; lia).
      apply ev_bin; [now apply ev_var|apply ev_num|intros [?|[?|?]]; discriminate|]. cbn [arith]. unfold small. lia.
    + intros [?|[?|?]]; discriminate.
    + unfold small. change (arith OMul (Z.of_nat (S n)) (zfact n)) with (zfact (S n)). lia.
Qed.
Lemma named x : identifier x -> existsb (beq x) (keywords ++ map op_name [OAdd; OSub; OMul; OQuo; ORem; OMod] ++ map rel_name [REq; RLt; RGt; RLe; RGe]) = false -> name x.
Proof.
  intros I E. assert (A : forall y, In y (keywords ++ map op_name [OAdd; OSub; OMul; OQuo; ORem; OMod] ++ map rel_name [REq; RLt; RGt; RLe; RGe]) -> x <> y).
  { intros y J ->. assert (existsb (beq y) (keywords ++ map op_name [OAdd; OSub; OMul; OQuo; ORem; OMod] ++ map rel_name [REq; RLt; RGt; RLe; RGe]) = true) by (apply existsb_exists; exists y; split; [exact J|apply beq_refl]). congruence. }
  split; [exact I|]. split; [intros J; apply (A x); [apply in_or_app; now left|reflexivity]|]. split.
  - intros o. apply A. apply in_or_app. right. apply in_or_app. left. apply in_map. destruct o; cbn; tauto.
  - intros r. apply A. apply in_or_app. right. apply in_or_app. right. apply in_map. destruct r; cbn; tauto.
Qed.
Lemma lower x : x <> [] -> forallb (fun c => (97 <=? c) && (c <=? 122)) x = true -> identifier x.
Proof.
  intros NE H. assert (A : forall c, In c x -> 97 <= c <= 122).
  { intros c I. rewrite forallb_forall in H. specialize (H c I). rewrite andb_true_iff, !Z.leb_le in H. lia. }
  split; [apply Forall_forall; intros c I; left; right; now apply A|]. split; [exact NE|]. split; [intros ->; specialize (A 46 (or_introl eq_refl)); lia|].
  split; [intros r ->; specialize (A 58 (or_introl eq_refl)); lia|]. split; [intros r ->; specialize (A 46 (or_introl eq_refl)); lia|].
  split; [intros c r -> D; specialize (A c (or_introl eq_refl)); unfold digit in D; lia|].
  intros s c r -> [-> | ->]; specialize (A _ (or_introl eq_refl)); lia.
Qed.
Lemma wf212 : wf_fn fact212.
Proof.
  assert (N1 : name (bs "n")) by (apply named; [apply lower; [discriminate|reflexivity]|reflexivity]).
  assert (N2 : name (bs "fact")) by (apply named; [apply lower; [discriminate|reflexivity]|reflexivity]).
  split; [exact N2|]. split; [constructor; [exact N1|constructor]|]. split; [constructor; [intros []|constructor]|].
  assert (S0 : small 0) by reflexivity. assert (S1 : small 1) by reflexivity.
  apply wf_if; [apply wf_var|apply wf_num|apply wf_num|apply wf_bin; [apply wf_var|apply wf_call; [|constructor; [apply wf_bin; [apply wf_var|apply wf_num]|constructor]]]]; assumption.
Qed.
Example c212_factorial : forall n, (n <= 20)%nat -> exists N s', forall m, (N <= m)%nat ->
  session prim212 m [bs "(define (fact n) (if (= n 0) 1 (* n (fact (- n 1)))))"; bs "(fact " ++ dec (Z.of_nat n) ++ bs ")"] api212 =
  Some ([Some VNone; Some (VInt (zfact n))], s').
Proof.
  intros n L. destruct (c212_session prim212 api212 [fact212] [Call (bs "fact") [Num (Z.of_nat n)]] [Some (zfact n)] numeric212 ready212)
    as (N & s' & H & _).
  - constructor; [apply wf212|constructor].
  - constructor; [intros []|constructor].
  - constructor; [reflexivity|constructor].
  - destruct wf212 as (A & _). constructor; [|constructor]. apply wf_call; [exact A|]. constructor; [|constructor]. apply wf_num. unfold small. assert (2 ^ 63 = 9223372036854775808) by reflexivity. lia.
  - constructor; [|constructor]. apply (ev_call _ _ _ _ _ fact212 [Z.of_nat n]); try reflexivity; [now left| |now apply fact_body].
    apply evs_cons; [apply ev_num|constructor].
  - exists N, s'. intros m Hm. specialize (H m Hm). change (repeat (Some VNone) (length [fact212]) ++ map answer [Some (zfact n)]) with [Some VNone; Some (VInt (zfact n))] in H.
    rewrite <- H. f_equal. cbn [map app]. f_equal. unfold show, paren, spaced. cbn [map flat_map app]. now rewrite app_nil_r.
Qed.
