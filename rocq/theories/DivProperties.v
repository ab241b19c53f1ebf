(** C214.  The converse of C212: an answer of the interpreter is an answer of the
    rules, and a program to which the rules give no outcome is never answered. *)
From Coq Require Import String Lia.
From Verif Require Import Base NumModel NumSpec ParseModel ParseSpec PrintModel ParseProperties EnvModel EvalModel EvalMono ApiModel
  LangSpec LangProofs LangProofs2 LangProofs3 LangProperties EvalWitness DivSpec DivProofs.
Local Open Scope string_scope.
Local Open Scope Z_scope.
Local Open Scope list_scope.

Section Steps.
Variable prim : list Z -> list val -> pres.
Hypothesis HN : numeric prim.
Variable free : list Z -> Prop.
Variable P : list fn.
Hypothesis WP : Forall wf_fn P.
Hypothesis SP : Forall (fun d => scoped P free (f_params d) (f_body d)) P.
Notation inv := (inv free P).

Lemma names_nil : names_ok []. Proof. intros x z; discriminate. Qed.
(* one expression: no fuel is missing, or the rules say something *)
Lemma exp_conv n e go s : wf e -> scoped P free [] e -> inv s -> runs_as prim go (code e) s ->
  go n = AFuel \/ over P free [] e \/ exists w s', ev P free [] e w /\ go n = AOk (answer w) s' /\ inv s'.
Proof.
  intros W Sc [B R M] (st1 & R1 & V & Er & Fu).
  assert (B1 : base P free st1) by (eapply base_rest; eauto).
  pose proof (okenv_global P free st1 B1) as O1.
  assert (D : eval prim n g_env (code e) st1 = OFuel \/ eval prim n g_env (code e) st1 <> OFuel).
  { destruct (eval prim n g_env (code e) st1); auto; right; discriminate. }
  destruct D as [D|D]; [left; now apply Fu|right].
  destruct (converse prim P free HN WP SP n [] e st1 g_env _ B1 O1 W names_nil Sc D) as [(w & E)|?]; [right|now left].
  destruct (ev_got prim P free HN WP n [] e w st1 g_env _ E W names_nil B1 O1 D) as (st2 & E2 & B2 & _ & G).
  pose proof E2 as (_ & _ & _ & M2 & _ & _ & D2).
  assert (M1 : s_mods st2 <> []). { rewrite M2. destruct R1 as (_ & -> & _). exact M. }
  assert (K : forall s3, left_as s s3 st2 -> inv s3).
  { intros s3 (L1 & L2). constructor; [eapply base_rest; eauto|now rewrite L2|]. destruct L1 as (_ & -> & _). exact M1. }
  exists w. destruct w as [z|].
  - destruct (V st2 (VInt z) D2) as (s3 & L & Ky & X). exists s3. auto.
  - destruct (Er st2 D2) as (s3 & L & Ky & X). exists s3. auto.
Qed.
Lemma exps_conv n es : Forall wf es -> Forall (scoped P free []) es -> forall gos s vs s', inv s -> Forall2 (does prim) gos (map code es) ->
  seq gos n s = Some (vs, s') ->
  (exists ws, Forall2 (ev P free []) es ws /\ vs = map answer ws) \/
  (exists e1 e e2 ws, es = e1 ++ e :: e2 /\ Forall2 (ev P free []) e1 ws /\ over P free [] e).
Proof.
  intros W Sc. induction W as [|e es We W IH]; intros gos s vs s' I G Q.
  - inversion G; subst. injection Q as <- <-. left. exists []. split; constructor.
  - inversion Sc as [|? ? Se Ss]; subst. inversion G as [|g ? gos' ? Gg Gs]; subst. cbn [seq] in Q.
    destruct (exp_conv n e (fun n => g n s) s We Se I (Gg s (i_room _ _ _ I))) as [F|[Ov|(w & s1 & E & F & I1)]].
    + rewrite F in Q. discriminate Q.
    + right. exists [], e, es, []. repeat split; auto.
    + rewrite F in Q. destruct (seq gos' n s1) as [[vs1 s2]|] eqn:Q1; [|discriminate Q]. injection Q as <- <-.
      destruct (IH Ss gos' s1 vs1 s2 I1 Gs Q1) as [(ws & Es & ->)|(e1 & x & e2 & ws & -> & Es & Ov)].
      * left. exists (w :: ws). split; [now constructor|reflexivity].
      * right. exists (e :: e1), x, e2, (w :: ws). repeat split; auto.
Qed.
End Steps.

Lemma fn_strings prim P : Forall wf_fn P ->
  Forall2 (does prim) (map (fun t n s => pscm_eval_string prim n t s) (map show_fn P)) (map code_fn P).
Proof.
  intros WP. apply does_strings. induction WP as [|d P W _ IH]; cbn [map]; constructor; auto. exists (datum_fn d).
  split; [now apply read_fn|apply program_fn].
Qed.
Lemma exp_strings prim es : Forall wf es ->
  Forall2 (does prim) (map (fun t n s => pscm_eval_string prim n t s) (map show es)) (map code es).
Proof.
  intros WE. apply does_strings. induction WE as [|e es W _ IH]; cbn [map]; constructor; auto. exists (datum e).
  split; [now apply read_exp|apply program_code].
Qed.

(** Whatever a session answers is what the rules say, unless some expression of it
    comes to a number out of range, all before it having been answered by the rules. *)
Theorem c214_answers : forall prim s P es n vs s', numeric prim -> ready s ->
  Forall wf_fn P -> NoDup (map f_name P) -> Forall (unbound s) (map f_name P) ->
  Forall (fun d => scoped P (unbound s) (f_params d) (f_body d)) P ->
  Forall wf es -> Forall (scoped P (unbound s) []) es ->
  session prim n (map show_fn P ++ map show es) s = Some (vs, s') ->
  (exists ws, Forall2 (ev P (unbound s) []) es ws /\ vs = repeat (Some VNone) (length P) ++ map answer ws) \/
  (exists e1 e e2 ws, es = e1 ++ e :: e2 /\ Forall2 (ev P (unbound s) []) e1 ws /\ over P (unbound s) [] e).
Proof.
  intros prim s P es n vs s' HN R WP ND F SP WE SE Q.
  destruct (Nat.eq_dec n 0) as [->|N0].
  { rewrite session_seq, map_app, seq_app in Q. destruct WP as [|d P Wd WP].
    - cbn [map seq] in Q. destruct (seq _ 0 s) as [[v2 s2]|] eqn:Q2; [|discriminate Q]. injection Q as <- <-.
      destruct (exps_conv prim HN (unbound s) [] (Forall_nil _) SP 0%nat es WE SE _ s v2 s2 (inv_start s R) (exp_strings prim es WE) Q2)
        as [(ws & E & ->)|Y]; eauto.
    - exfalso. pose proof (fn_strings prim (d :: P) (Forall_cons _ Wd WP)) as D. cbn [map] in D. inversion D as [|? ? ? ? Dd _]; subst.
      destruct (Dd s ltac:(pose proof (r_room _ R); lia)) as (st1 & _ & _ & _ & Fu). cbn [map seq] in Q. rewrite (Fu 0%nat eq_refl) in Q. discriminate Q. }
  assert (Hn : (1 <= n)%nat) by lia.
  destruct (fns_steps prim (unbound s) P WP [] _ s (inv_start s R) F ND (fn_strings prim P WP)) as (s1 & X & I & _).
  rewrite session_seq, map_app, seq_app, X in Q by exact Hn.
  destruct (seq _ n s1) as [[v2 s2]|] eqn:Q2; [|discriminate Q]. injection Q as <- <-.
  destruct (exps_conv prim HN (unbound s) P WP SP n es WE SE _ s1 v2 s2 I (exp_strings prim es WE) Q2) as [(ws & E & ->)|Y]; eauto.
Qed.
Print Assumptions c214_answers.

(** An expression to which the rules give no outcome, and which does not come to a
    number out of range, is never answered: the call of pscm_eval_string does not
    return, however deep the C stack -- not even with an error -- although
    everything before it has been answered. *)
Theorem c214_never : forall prim s P es ws e, numeric prim -> ready s ->
  Forall wf_fn P -> NoDup (map f_name P) -> Forall (unbound s) (map f_name P) ->
  Forall (fun d => scoped P (unbound s) (f_params d) (f_body d)) P ->
  Forall wf es -> Forall2 (ev P (unbound s) []) es ws ->
  wf e -> scoped P (unbound s) [] e ->
  (forall w, ~ ev P (unbound s) [] e w) -> ~ over P (unbound s) [] e ->
  exists N s', forall n, (N <= n)%nat ->
    session prim n (map show_fn P ++ map show es) s = Some (repeat (Some VNone) (length P) ++ map answer ws, s') /\
    pscm_eval_string prim n (show e) s' = AFuel.
Proof.
  intros prim s P es ws e HN R WP ND F SP WE E We Se NE NO.
  destruct (fns_steps prim (unbound s) P WP [] _ s (inv_start s R) F ND (fn_strings prim P WP)) as (s1 & X & I & _).
  destruct (exps_steps prim HN (unbound s) P es WP WE ws _ s1 I E (exp_strings prim es WE)) as (N & s2 & Y & I2 & _).
  exists (1 + N)%nat, s2. intros n Hn. split.
  - rewrite session_seq, map_app, seq_app, X, Y by lia. reflexivity.
  - pose proof (exp_strings prim [e] ltac:(auto)) as D. cbn [map] in D. inversion D as [|? ? ? ? De _]; subst.
    destruct (exp_conv prim HN (unbound s) P WP SP n e _ s2 We Se I2 (De s2 (i_room _ _ _ I2))) as [?|[?|(w & ? & Ew & _)]]; auto.
    + contradiction.
    + now elim (NE w).
Qed.
Print Assumptions c214_never.

(** The two cases of an answer exclude each other. *)
Scheme over_min := Minimality for over Sort Prop with overs_min := Minimality for overs Sort Prop.
Combined Scheme over_overs_min from over_min, overs_min.
Lemma not_both P free : NoDup (map f_name P) ->
  (forall r e, over P free r e -> forall w, ~ ev P free r e w) /\
  (forall r es, overs P free r es -> forall w, ~ evs P free r es w).
Proof.
  intros ND. destruct (one_answer P free ND) as (U & Us).
  assert (DD : forall d d', In d P -> In d' P -> f_name d = f_name d' -> d = d') by (intros; eapply same_def; eauto).
  assert (UN : forall d, In d P -> unknown P free (f_name d) -> False) by (intros d I (_ & Uk); apply Uk; now apply in_map).
  assert (LL : forall r es vs, evs P free r es (Some vs) -> length es = length vs) by (intros; eapply evs_length; eauto).
  apply over_overs_min; intros; intros E; inversion E; subst;
    repeat match goal with
    | A : ev P free ?r ?e ?w1, B : ev P free ?r ?e ?w2 |- _ =>
        lazymatch w1 with w2 => fail | _ => assert (w1 = w2) by exact (U _ _ _ A _ B); first [discriminate|match goal with Q : Some _ = Some _ |- _ => injection Q as Q; subst end] end
    | A : evs P free ?r ?e ?w1, B : evs P free ?r ?e ?w2 |- _ =>
        lazymatch w1 with w2 => fail | _ => assert (w1 = w2) by exact (Us _ _ _ A _ B); first [discriminate|match goal with Q : Some _ = Some _ |- _ => injection Q as Q; subst end] end
    | I : In ?d P, J : In ?d2 P, Q : f_name ?d2 = f_name ?d |- _ => assert (d2 = d) by (apply DD; auto); subst d2; clear Q
    end; try contradiction; try (now eauto);
    try (match goal with D : divides ?o, H : divides ?o -> _ |- _ => now elim H end);
    try (match goal with I : In ?d P, Uk : unknown _ _ (f_name ?d) |- _ => exact (UN d I Uk) end);
    try (match goal with IH : (forall w, ~ ev _ _ ?r ?e w), H : ev _ _ ?r ?e _ |- _ => now elim (IH _ H) end);
    try (match goal with IH : (forall w, ~ evs _ _ ?r ?e w), H : evs _ _ ?r ?e _ |- _ => now elim (IH _ H) end).
  all: match goal with A : evs _ _ ?r ?args (Some ?vs), L : length ?vs = _ |- _ =>
      let Q := fresh in pose proof (LL _ _ _ A) as Q; rewrite L in Q end.
  all: try (rewrite firstn_all2 in * by lia).
  all: try contradiction.
  all: try (match goal with IH : (forall w, ~ evs _ _ ?r ?e w), H : evs _ _ ?r ?e _ |- _ => now elim (IH _ H) end).
  all: match goal with A : evs _ _ ?r ?args (Some ?vs), B : evs _ _ ?r ?args None |- _ => discriminate (Us _ _ _ A _ B) end.
Qed.
Theorem c214_exclusive : forall P free r e w, NoDup (map f_name P) -> ev P free r e w -> ~ over P free r e.
Proof. intros P free r e w ND E O. exact (proj1 (not_both P free ND) _ _ O _ E). Qed.
Print Assumptions c214_exclusive.

(** ** Concrete cases *)
(* (define (f x) (f x)) *)
Definition spin : fn := Fn (bs "f") [bs "x"] (Call (bs "f") [Var (bs "x")]).
Lemma nm x : x <> [] -> forallb (fun c => (97 <=? c) && (c <=? 122)) x = true ->
  existsb (beq x) (keywords ++ map op_name [OAdd; OSub; OMul; OQuo; ORem; OMod] ++ map rel_name [REq; RLt; RGt; RLe; RGe]) = false -> name x.
Proof. intros A B C. apply named; [now apply lower|exact C]. Qed.
(* no rule gives (f x) an outcome when x has a value *)
Lemma spin_ev free :
  (forall r e w, ev [spin] free r e w -> forall a z, e = Call (bs "f") [a] -> look r (bs "f") = None -> ev [spin] free r a (Some z) -> False) /\
  (forall r es w, evs [spin] free r es w -> True).
Proof.
  assert (ND : NoDup (map f_name [spin])) by (constructor; [intros []|constructor]).
  destruct (one_answer [spin] free ND) as (U & _).
  apply ev_evs_min; auto; try (intros; discriminate).
  - intros r f args d vs w Lf [<-|[]] <- Es _ Lv Eb IH a z [= ->] _ Ea. inversion Es as [|? ? ? x ? E1 E2| |]; subst. inversion E2; subst.
    apply (IH (Var (bs "x")) x); auto. now constructor.
  - intros r f args d Lf [<-|[]] <- Es _ a z [= ->] _ Ea. cbn in Es. inversion Es as [| |? ? ? E1|? ? ? ? E1 E2]; subst.
    + discriminate (U _ _ _ Ea _ E1).
    + inversion E2.
  - intros r f args d vs Lf [<-|[]] <- Es _ Ln a z [= ->] _ Ea. now elim Ln.
  - intros r f args Lf (_ & Uk) a z [= -> ->] _ Ea. apply Uk. now left.
Qed.
Lemma spin_over free :
  (forall r e, over [spin] free r e -> forall a z, e = Call (bs "f") [a] -> look r (bs "f") = None -> ev [spin] free r a (Some z) -> False) /\
  (forall r es, overs [spin] free r es -> True).
Proof.
  assert (ND : NoDup (map f_name [spin])) by (constructor; [intros []|constructor]).
  apply over_overs_min; auto; try (intros; discriminate).
  - intros r f args d Lf [<-|[]] <- Os _ a z [= ->] _ Ea. cbn in Os. inversion Os as [? ? ? E1|? ? ? ? E1 E2]; subst.
    + exact (c214_exclusive [spin] free r a (Some z) ND Ea E1).
    + inversion E2.
  - intros r f args d vs Lf [<-|[]] <- Es Lv Ob IH a z [= ->] _ Ea. inversion Es as [|? ? ? x ? E1 E2| |]; subst. inversion E2; subst.
    apply (IH (Var (bs "x")) x); auto. now constructor.
Qed.
Example c214_spin : exists N s', forall n, (N <= n)%nat ->
  session prim212 n [bs "(define (f x) (f x))"; bs "(+ 1 2)"] api212 = Some ([Some VNone; Some (VInt 3)], s') /\
  pscm_eval_string prim212 n (bs "(f 7)") s' = AFuel.
Proof.
  assert (Nx : name (bs "x")) by (apply nm; [discriminate|reflexivity|reflexivity]).
  assert (Nf : name (bs "f")) by (apply nm; [discriminate|reflexivity|reflexivity]).
  assert (ND : NoDup (map f_name [spin])) by (constructor; [intros []|constructor]).
  apply (c214_never prim212 api212 [spin] [Bin OAdd (Num 1) (Num 2)] [Some 3] (Call (bs "f") [Num 7]) numeric212 ready212).
  - constructor; [|constructor]. split; [exact Nf|]. split; [constructor; auto|]. split; [constructor; [intros []|constructor]|].
    apply wf_call; [exact Nf|]. constructor; [now apply wf_var|constructor].
  - exact ND.
  - constructor; [reflexivity|constructor].
  - constructor; [|constructor]. apply sc_call; [intros [Q|[]]; discriminate Q|left; now left|]. constructor; [|constructor]. apply sc_var. left. now left.
  - constructor; [|constructor]. apply wf_bin; apply wf_num; reflexivity.
  - constructor; [|constructor]. change (Some 3) with (Some (arith OAdd 1 2)).
    apply ev_bin; [apply ev_num|apply ev_num|intros [Q|[Q|Q]]; discriminate Q|reflexivity].
  - apply wf_call; [exact Nf|]. constructor; [apply wf_num; reflexivity|constructor].
  - apply sc_call; [intros []|left; now left|]. constructor; [apply sc_num|constructor].
  - intros w E. apply (proj1 (spin_ev (unbound api212)) _ _ _ E (Num 7) 7); auto. constructor.
  - intros Ov. apply (proj1 (spin_over (unbound api212)) _ _ Ov (Num 7) 7); auto. constructor.
Qed.
(* an expression that comes to a number out of range *)
Example c214_over : over [] (fun _ => True) [] (If RLt (Num 1) (Num 2) (Bin OMul (Num (2 ^ 62)) (Num 2)) (Num 0)).
Proof.
  apply (ov_branch _ _ _ _ _ _ _ _ 1 2); [apply ev_num|apply ev_num|]. apply (ov_here _ _ _ _ _ _ (2 ^ 62) 2); [apply ev_num|apply ev_num| |].
  - intros [Q|[Q|Q]]; discriminate Q.
  - unfold small. intros X. vm_compute in X. discriminate X.
Qed.
