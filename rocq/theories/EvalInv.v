(** A property of (state before, way of ending) that holds of the primitive
    steps, composes, and is kept by catch, call/cc, dynamic-wind and continuation
    calls, holds of every evaluation. *)
From Coq Require Import String Lia.
From Verif Require Import Base ParseModel PrintModel EnvModel EvalModel.
Local Open Scope list_scope.

(** How an evaluation ends, without the value. *)
Inductive ending :=
| ERet (st : state) | EThrown (id : nat) (st : state) | EJump (k : nat) (st : state) | EExit (st : state) | ENone.
Definition ending_of {A} (o : out A) : ending :=
  match o with
  | Ret _ st => ERet st
  | Thrown id _ _ st => EThrown id st
  | Jump k _ st => EJump k st
  | Exit st => EExit st
  | OAbort | OUB | OFuel => ENone
  end.

Section Generic.
Variable prim : list Z -> list val -> pres.
Variable Q : state -> ending -> Prop.
Definition ok {A} (m : EM A) : Prop := forall st, Q st (ending_of (m st)).

Hypothesis Qrefl : forall st, Q st (ERet st).
Hypothesis Qtrans : forall st st1 o, Q st (ERet st1) -> Q st1 o -> Q st o.
Hypothesis Qnone : forall st, Q st ENone.
Hypothesis Qthrow : forall st key args, Q st (ending_of (@throw val key args st)).
Hypothesis Qframe : forall st a x v, Q st (ERet (set_frame st a (put x v (frame_at st a)))).
Hypothesis Qadd : forall st a x v, Q st (ERet (set_frame st a ((x, v) :: frame_at st a))).
Hypothesis Qob : forall st m x v, Q st (ERet (ob_set st m x v)).
Hypothesis Qenv : forall st e, Q st (ERet (snd (make_env st e))).
Hypothesis Qemit : forall st s, Q st (ERet (emit s st)).
Hypothesis Qdelay : forall st e x, Q st (ending_of (do_delay e x st)).
Hypothesis Qforce : forall st a p v, nth_error (s_proms st) a = Some p -> pr_val p = None -> Q st (ERet (set_promise a v st)).
Hypothesis Qwind : forall i o b t a, ok b -> ok t -> ok a -> ok (winding i o b t a).
Hypothesis Qcont : forall f, (forall k, ok (f k)) -> ok (with_cont f).
Hypothesis Qcatch : forall n tag b h, ok b -> (forall k a, ok (h k a)) -> ok (catching n tag b h).
Hypothesis Qjump : forall ev k v, (forall f, ok (call_guard ev f)) -> ok (@dynthrow ev val k v).

Lemma ok_ret {A} (a : A) : ok (ret a). Proof. intro st. apply Qrefl. Qed.
Lemma ok_bind {A B} (m : EM A) (f : A -> EM B) : ok m -> (forall a, ok (f a)) -> ok (ebind m f).
Proof.
  intros Hm Hf st. unfold ebind. specialize (Hm st). destruct (m st); cbn in *; auto.
  eapply Qtrans; [exact Hm|]. apply Hf.
Qed.
Lemma ok_abort {A} : ok (@abort A). Proof. intro st. apply Qnone. Qed.
Lemma ok_ub {A} : ok (@ub A). Proof. intro st. apply Qnone. Qed.
Lemma ok_fuel {A} : ok (@fuel A). Proof. intro st. apply Qnone. Qed.
Lemma ok_throw {A} key args : ok (@throw A key args).
Proof. intro st. generalize (Qthrow st key args). unfold throw. now destruct (find_handler _ _ _). Qed.
Lemma ok_err {A} : ok (@err A). Proof. apply ok_throw. Qed.
Lemma ok_wrong {A} f : ok (@wrong_args A f). Proof. apply ok_throw. Qed.
Lemma ok_gets {A} (f : state -> A) : ok (gets f). Proof. intro st. apply Qrefl. Qed.
Lemma ok_insert_any e x v b : ok (modify (fun st => env_insert st e x v b)).
Proof.
  intro st. cbn. unfold env_insert. destruct (search_entry st e x b) as [[a ?]|]; [apply Qframe|].
  destruct (e_chain e); [apply Qrefl|apply Qadd].
Qed.
Lemma ok_insert e x v : ok (insert e x v). Proof. apply ok_insert_any. Qed.
Lemma ok_insert_up e x v : ok (insert_up e x v). Proof. apply ok_insert_any. Qed.
Lemma ok_set e x v : ok (modify (fun st => do_set st e x v)).
Proof.
  intro st. cbn. unfold do_set. destruct (search_entry st e x true) as [[a ?]|]; [apply Qframe|].
  destruct (mod_find st (s_cur st) x) as [[m ?]|]; [apply Qob | apply (ok_insert_any e x v false st)].
Qed.
Lemma ok_defvar e x v : ok (modify (fun st => do_define_var st e x v)).
Proof.
  intro st. cbn. unfold do_define_var.
  assert (G : Q st (ERet match assoc x (frame_at st 0) with
    | Some _ => set_frame st 0 (put x v (frame_at st 0)) | None => ob_set st (s_cur st) x v end))
    by (destruct (assoc x _); [apply Qframe | apply Qob]).
  destruct (e_chain e) as [|? [|? ?]]; auto.
  destruct (e_mod e); [apply Qob | apply (ok_insert_any e x v false st)].
Qed.
Lemma ok_store e x v : ok (modify (fun st => store_macro st e x v)).
Proof.
  intro st. cbn. unfold store_macro. destruct (_ =? _)%nat; [apply (ok_insert_any e x v true st) | apply Qob].
Qed.
Lemma ok_defproc x v : ok (modify (fun st => do_define_proc st x v)). Proof. intro st. apply Qob. Qed.
Lemma ok_emit s : ok (modify (emit s)). Proof. intro st. apply Qemit. Qed.
Lemma ok_alloc e : ok (alloc_frame e).
Proof. intro st. unfold alloc_frame. generalize (Qenv st e). now destruct (make_env st e). Qed.
Lemma ok_delay e x : ok (do_delay e x). Proof. intro st. apply Qdelay. Qed.
Lemma ok_mapM {A B} (f : A -> EM B) l : (forall a, ok (f a)) -> ok (mapM f l).
Proof.
  intro H. induction l as [|x l IH]; [apply ok_ret|].
  apply ok_bind; [apply H|intro]. apply ok_bind; [apply IH|intro]. apply ok_ret.
Qed.

Section Step.
Variable ev : env -> val -> EM val.
Hypothesis Hev : forall e x, ok (ev e x).

Ltac split_match := match goal with |- ok (match ?x with _ => _ end) => destruct x end.
Create HintDb okdb.
Hint Resolve Hev ok_mapM ok_ret ok_abort ok_ub ok_fuel ok_throw ok_err ok_wrong ok_gets ok_insert ok_insert_up ok_set ok_defvar ok_store
  ok_defproc ok_emit ok_alloc ok_delay : okdb.
Ltac okt := repeat first [ solve [auto 2 with okdb] | apply ok_bind; [|intro] | split_match ].

Lemma ok_body e es : ok (eval_body ev e es).
Proof.
  induction es as [|x [|y r] IH]; [okt|apply Hev|].
  change (ok (ebind (ev e x) (fun _ => eval_body ev e (y :: r)))). okt.
Qed.
Lemma ok_args e es : ok (eval_args ev e es).
Proof. induction es as [|x r IH]; cbn; okt. Qed.
Lemma ok_lookup e x : ok (lookup e x).
Proof. unfold lookup. okt. Qed.
Hint Resolve ok_body ok_args ok_lookup : okdb.
Lemma ok_bindl ce fe rest ps : forall args, ok (bind_loop ev ce fe rest ps args).
Proof. induction ps as [|p ps IH]; intros [|a r]; cbn; okt; apply IH. Qed.
Lemma ok_bindv fe rest ps : forall args dv, ok (bind_values fe rest ps args dv).
Proof. induction ps as [|p ps IH]; intros [|a r] dv; cbn [bind_values]; okt; apply IH. Qed.
Hint Resolve ok_bindl ok_bindv : okdb.
Lemma ok_apply ce ps d b pe args : ok (apply_proc ev ce ps d b pe args).
Proof. unfold apply_proc. okt. Qed.
Lemma ok_vals ps d b pe args dv : ok (apply_vals ev ps d b pe args dv).
Proof. unfold apply_vals. okt. Qed.
Hint Resolve ok_apply ok_vals : okdb.
Lemma ok_thunk f e : ok (call_thunk ev f e).
Proof. unfold call_thunk. okt. Qed.
Hint Resolve ok_thunk : okdb.
Lemma ok_force v : ok (do_force ev v).
Proof.
  unfold do_force. destruct v; try apply ok_err.
  apply ok_bind; [apply ok_gets|]. intros [p|]; [|apply ok_fuel].
  destruct (pr_val p); [apply ok_ret|].
  apply ok_bind; [apply ok_apply|]. intros r st. cbn. unfold ebind, gets. cbn.
  destruct (nth_error (s_proms st) a) as [q|] eqn:E.
  - destruct (pr_val q) eqn:V; cbn; [apply Qrefl|]. now apply Qforce with q.
  - cbn. unfold set_promise. rewrite E. destruct st. apply Qrefl.
Qed.
Lemma ok_catch n tag t h : ok (do_catch ev n tag t h).
Proof. apply Qcatch; [|intros k a]; okt. Qed.
Lemma ok_guard f : ok (call_guard ev f).
Proof. unfold call_guard. okt. Qed.
Lemma ok_dynthrow k v : ok (@dynthrow ev val k v).
Proof. apply Qjump, ok_guard. Qed.
Lemma ok_wind e i t o : ok (do_wind ev e i t o).
Proof. unfold do_wind. okt; apply Qwind; okt. Qed.
Hint Resolve ok_force ok_catch ok_dynthrow ok_wind : okdb.
Lemma ok_func n nm ar args : ok (call_func prim ev n nm ar args).
Proof. unfold call_func. okt. Qed.
Hint Resolve ok_func : okdb.
Lemma ok_quoted n e f args : ok (call_quoted prim ev n e f args).
Proof. unfold call_quoted. okt. Qed.
Hint Resolve ok_quoted : okdb.
Lemma ok_lists e es : ok (eval_lists ev e es).
Proof. induction es; cbn; okt. Qed.
Lemma ok_rows n e f rs : ok (map_rows prim ev n e f rs).
Proof. induction rs; cbn; okt. Qed.
Hint Resolve ok_lists ok_rows : okdb.
Lemma ok_map n e args : ok (do_map prim ev n e args).
Proof. unfold do_map. okt. Qed.
Hint Resolve ok_map : okdb.
Lemma ok_each e f l : forall ls, ok (each_rows ev e f l ls).
Proof. induction l as [|x l IH]; intro ls; cbn [each_rows]; okt; apply IH. Qed.
Lemma ok_nlists e n : forall es, ok (eval_n_lists ev e n es).
Proof. induction n as [|n IH]; intros [|x es]; cbn; okt; apply IH. Qed.
Hint Resolve ok_each ok_nlists : okdb.
Lemma ok_for_each e args : ok (do_for_each ev e args).
Proof. unfold do_for_each. okt. Qed.
Hint Resolve ok_for_each : okdb.
Lemma ok_do_apply m : forall n e args, ok (do_apply prim ev m n e args).
Proof.
  induction m as [|m IH]; intros n e args; [apply ok_fuel|].
  cbn [do_apply]. okt. all: apply Qcont; intro; okt.
Qed.
Lemma ok_callcc_func n e args : ok (do_callcc_func prim ev n e args).
Proof. unfold do_callcc_func. okt. apply Qcont; intro; okt. Qed.
Lemma ok_cwv n e args : ok (do_call_with_values prim ev n e args).
Proof. unfold do_call_with_values. okt. Qed.
Hint Resolve ok_do_apply ok_callcc_func ok_cwv : okdb.
Lemma ok_expansion e x : ok (run_expansion ev e x).
Proof. unfold run_expansion. okt. Qed.
Lemma ok_cond e cs : ok (eval_cond ev e cs).
Proof. induction cs; cbn; okt. Qed.
Lemma ok_case e k cs : ok (eval_case_clauses ev e k cs).
Proof. induction cs; cbn; okt. Qed.
Lemma ok_inits e de bs : ok (do_inits ev e de bs).
Proof. induction bs; cbn; okt. Qed.
Lemma ok_insert_all de xs : forall vs, ok (insert_all de xs vs).
Proof. induction xs as [|[x y] xs IH]; intros [|v vs]; cbn; okt; apply IH. Qed.
Hint Resolve ok_insert_all : okdb.
Lemma ok_update de s : ok (update_do ev de s).
Proof. unfold update_do. okt. Qed.
Lemma ok_last e es : forall acc, ok (eval_last ev e es acc).
Proof. induction es as [|x es IH]; intro acc; cbn; okt; apply IH. Qed.
Hint Resolve ok_expansion ok_cond ok_case ok_inits ok_update ok_last : okdb.
Lemma ok_loop m : forall de t r b s, ok (do_loop ev m de t r b s).
Proof. induction m as [|m IH]; intros; [apply ok_fuel|]. cbn [do_loop]. okt. Qed.
Hint Resolve ok_loop : okdb.
Lemma ok_do n e args : ok (do_do ev n e args).
Proof. unfold do_do. okt. Qed.
Lemma ok_vector v : ok (to_vector v).
Proof. unfold to_vector. okt. Qed.
Hint Resolve ok_vector : okdb.
Lemma ok_quasi m : forall e p d, ok (quasi ev m e p d).
Proof. induction m as [|m IH]; intros e p d; [apply ok_fuel|]. cbn [quasi]. okt. Qed.
Hint Resolve ok_do ok_quasi : okdb.
Lemma ok_bind_macro fe rest ps : forall args, ok (bind_macro fe rest ps args).
Proof. induction ps as [|p ps IH]; intros [|a r]; cbn; okt; apply IH. Qed.
Hint Resolve ok_bind_macro : okdb.
Lemma ok_expand_call ps d b me args : ok (expand_call ev ps d b me args).
Proof. unfold expand_call. okt. Qed.
Hint Resolve ok_expand_call : okdb.
Lemma ok_expand_all m : forall e x, ok (expand_all ev m e x).
Proof. induction m as [|m IH]; intros e x; [apply ok_fuel|]. cbn [expand_all]. okt. Qed.
Lemma ok_after e x : ok (after_expand ev e x).
Proof. unfold after_expand. okt. Qed.
Hint Resolve ok_expand_all ok_after : okdb.
Lemma ok_macro n e ps d b me args : ok (run_macro ev n e ps d b me args).
Proof. unfold run_macro. okt. Qed.
Lemma ok_defmacro e args : ok (do_define_macro ev e args).
Proof. unfold do_define_macro. okt. Qed.
Lemma ok_lambda e s b : ok (do_lambda e s b).
Proof. unfold do_lambda. okt. Qed.
Hint Resolve ok_lambda : okdb.
Lemma ok_define e args : ok (do_define ev e args).
Proof. unfold do_define. okt. Qed.
Lemma ok_set_form e args : ok (do_set_form ev e args).
Proof. unfold do_set_form. okt. Qed.
Lemma ok_if e args : ok (do_if ev e args).
Proof. unfold do_if. okt. Qed.
Lemma ok_and e es : ok (do_and ev e es).
Proof. induction es as [|x [|y r] IH]; cbn [do_and]; okt. Qed.
Lemma ok_or e es : ok (do_or ev e es).
Proof. induction es as [|x [|y r] IH]; cbn [do_or]; okt. Qed.
Hint Resolve ok_macro ok_defmacro ok_define ok_set_form ok_if ok_and ok_or : okdb.
Lemma ok_special n e f args : ok (special prim ev n e f args).
Proof. destruct f; cbn [special]; okt; apply Qcont; intro; okt. Qed.
Hint Resolve ok_special : okdb.
Lemma ok_step n e x : ok (step prim ev n e x).
Proof. unfold step. okt. Qed.
End Step.

Theorem ok_eval : forall n e x, ok (eval prim n e x).
Proof. induction n as [|n IH]; intros e x; [apply ok_fuel|]. cbn [eval]. now apply ok_step. Qed.
End Generic.
