(** More fuel never changes a definite outcome: the basis of C64 and of every
    rule stated with [exists n]. *)
From Coq Require Import String Lia.
From Verif Require Import Base ParseModel PrintModel EnvModel EvalModel.
Local Open Scope list_scope.

Definition ole {A} (o o' : out A) : Prop := o = OFuel \/ o = o'.
Definition mle {A} (m m' : EM A) : Prop := forall st, ole (m st) (m' st).
Lemma ole_refl {A} (o : out A) : ole o o. Proof. now right. Qed.
Lemma mle_refl {A} (m : EM A) : mle m m. Proof. intro st. apply ole_refl. Qed.
Lemma mle_fuel {A} (m : EM A) : mle fuel m. Proof. intro st. now left. Qed.
Lemma mle_bind {A B} (m m' : EM A) (f f' : A -> EM B) :
  mle m m' -> (forall a, mle (f a) (f' a)) -> mle (ebind m f) (ebind m' f').
Proof.
  intros Hm Hf st. unfold ebind. destruct (Hm st) as [-> | ->]; [now left|].
  destruct (m' st); try apply ole_refl. apply Hf.
Qed.

Lemma mle_mapM {A B} (f f' : A -> EM B) l : (forall a, mle (f a) (f' a)) -> mle (mapM f l) (mapM f' l).
Proof.
  intro H. induction l as [|x l IH]; [apply mle_refl|].
  cbn [mapM]. apply mle_bind; [apply H|intro]. apply mle_bind; [apply IH|intro]. apply mle_refl.
Qed.

Section Mono.
Variable prim : list Z -> list val -> pres.
Variables ev ev' : env -> val -> EM val.
Hypothesis Hev : forall e x, mle (ev e x) (ev' e x).

Ltac split_match :=
  match goal with
  | |- mle (match ?x with _ => _ end) (match ?x with _ => _ end) => destruct x eqn:?
  | |- ole (match ?x with _ => _ end) (match ?x with _ => _ end) => destruct x eqn:?
  end.
Create HintDb mono.
Hint Resolve Hev mle_mapM mle_refl mle_fuel ole_refl : mono.
Ltac mono :=
  repeat first
    [ solve [auto 2 with mono]
    | apply mle_bind; [|intro]
    | split_match ].

Lemma m_body e es : mle (eval_body ev e es) (eval_body ev' e es).
Proof. induction es as [|x [|y r] IH]; [mono|apply Hev|]. change (mle (ebind (ev e x) (fun _ => eval_body ev e (y :: r))) (ebind (ev' e x) (fun _ => eval_body ev' e (y :: r)))). mono. Qed.
Lemma m_args e es : mle (eval_args ev e es) (eval_args ev' e es).
Proof. induction es as [|x r IH]; cbn; mono. Qed.
Hint Resolve m_body m_args : mono.
Lemma m_bind ce fe rest ps : forall args, mle (bind_loop ev ce fe rest ps args) (bind_loop ev' ce fe rest ps args).
Proof. induction ps as [|p ps IH]; intros [|a r]; cbn; mono; apply IH. Qed.
Hint Resolve m_bind : mono.
Lemma m_apply ce ps d b pe args : mle (apply_proc ev ce ps d b pe args) (apply_proc ev' ce ps d b pe args).
Proof. unfold apply_proc. mono. Qed.
Lemma m_vals ps d b pe args dv : mle (apply_vals ev ps d b pe args dv) (apply_vals ev' ps d b pe args dv).
Proof. unfold apply_vals. mono. Qed.
Hint Resolve m_apply m_vals : mono.
Lemma m_thunk f e : mle (call_thunk ev f e) (call_thunk ev' f e).
Proof. unfold call_thunk. mono. Qed.
Hint Resolve m_thunk : mono.
Lemma m_force v : mle (do_force ev v) (do_force ev' v).
Proof. unfold do_force. mono. Qed.
Hint Resolve m_force : mono.
Lemma m_handle n n' id w h h' : (forall k a, mle (h k a) (h' k a)) ->
  forall key args st, (n <= n')%nat -> ole (handle n id w h key args st) (handle n' id w h' key args st).
Proof.
  intro M. revert n'. induction n as [|n IH]; intros n' key args st L; [now left|].
  destruct n' as [|n']; [lia|]. cbn.
  match goal with |- context [note_catch ?w ?s] => destruct (M key args (note_catch w s)) as [E | E]; rewrite E end; [now left|].
  match goal with |- ole (match ?o with _ => _ end) _ => destruct o end; try apply ole_refl.
  match goal with |- context [(?a =? ?b)%nat] => destruct (a =? b)%nat end; [apply IH; lia | apply ole_refl].
Qed.
Lemma m_catching n n' tag b b' h h' : mle b b' -> (forall k a, mle (h k a) (h' k a)) -> (n <= n')%nat ->
  mle (catching n tag b h) (catching n' tag b' h').
Proof.
  intros M Mh L st. unfold catching. destruct (100 <=? _)%Z; [apply ole_refl|].
  destruct (M (push_catch tag st)) as [E | E]; rewrite E; [now left|].
  match goal with |- ole (match ?o with _ => _ end) _ => destruct o end; try apply ole_refl.
  match goal with |- context [(?a =? ?b)%nat] => destruct (a =? b)%nat end; [now apply m_handle | apply ole_refl].
Qed.
Lemma m_catch n n' tag thunk h : (n <= n')%nat -> mle (do_catch ev n tag thunk h) (do_catch ev' n' tag thunk h).
Proof. intro L. apply m_catching; auto; intros; mono. Qed.
Lemma m_guard f : mle (call_guard ev f) (call_guard ev' f).
Proof. unfold call_guard. mono. Qed.
Hint Resolve m_guard : mono.
Lemma m_outs ids : mle (run_outs ev ids) (run_outs ev' ids).
Proof. induction ids; cbn; mono. Qed.
Lemma m_ins ids : mle (run_ins ev ids) (run_ins ev' ids).
Proof. induction ids; cbn; mono. Qed.
Hint Resolve m_outs m_ins : mono.
Lemma m_rewind t : mle (rewind_to ev t) (rewind_to ev' t).
Proof. unfold rewind_to. mono. Qed.
Hint Resolve m_rewind : mono.
Lemma m_dynthrow {A} k v : mle (@dynthrow ev A k v) (@dynthrow ev' A k v).
Proof. unfold dynthrow. mono. Qed.
Hint Resolve m_dynthrow : mono.
Lemma m_cont f f' : (forall k, mle (f k) (f' k)) -> mle (with_cont f) (with_cont f').
Proof.
  intros H st. unfold with_cont.
  match goal with |- context [f ?k (push_cont st)] => destruct (H k (push_cont st)) as [E | E]; rewrite E end; [now left|].
  match goal with |- ole (match ?o with _ => _ end) _ => destruct o end; apply ole_refl.
Qed.
Lemma m_wind e i t o : mle (do_wind ev e i t o) (do_wind ev' e i t o).
Proof. unfold do_wind, winding. mono. Qed.
Hint Resolve m_wind : mono.
Lemma m_func n n' nm ar args : (n <= n')%nat -> mle (call_func prim ev n nm ar args) (call_func prim ev' n' nm ar args).
Proof. intro L. unfold call_func. mono; auto using m_catch. Qed.
Hint Resolve m_func : mono.
Lemma m_quoted n n' e f args : (n <= n')%nat -> mle (call_quoted prim ev n e f args) (call_quoted prim ev' n' e f args).
Proof. intro L. unfold call_quoted. mono. Qed.
Hint Resolve m_quoted : mono.
Lemma m_lists e es : mle (eval_lists ev e es) (eval_lists ev' e es).
Proof. induction es; cbn; mono. Qed.
Lemma m_rows n n' e f rs : (n <= n')%nat -> mle (map_rows prim ev n e f rs) (map_rows prim ev' n' e f rs).
Proof. intro L. induction rs; cbn; mono. Qed.
Hint Resolve m_lists m_rows : mono.
Lemma m_map n n' e args : (n <= n')%nat -> mle (do_map prim ev n e args) (do_map prim ev' n' e args).
Proof. intro L. unfold do_map. mono. Qed.
Hint Resolve m_map : mono.
Lemma m_each e f l : forall ls, mle (each_rows ev e f l ls) (each_rows ev' e f l ls).
Proof. induction l as [|x l IH]; intro ls; cbn [each_rows]; mono; apply IH. Qed.
Lemma m_nlists e n : forall es, mle (eval_n_lists ev e n es) (eval_n_lists ev' e n es).
Proof. induction n as [|n IH]; intros [|x es]; cbn; mono; apply IH. Qed.
Hint Resolve m_each m_nlists : mono.
Lemma m_for_each e args : mle (do_for_each ev e args) (do_for_each ev' e args).
Proof. unfold do_for_each. mono. Qed.
Hint Resolve m_for_each : mono.
Lemma m_do_apply m : forall m' n n' e args, (m <= m')%nat -> (n <= n')%nat ->
  mle (do_apply prim ev m n e args) (do_apply prim ev' m' n' e args).
Proof.
  induction m as [|m IH]; intros m' n n' e args L1 L2; [apply mle_fuel|].
  destruct m' as [|m']; [lia|].
  cbn [do_apply]. mono.
  all: try (apply IH; lia).
  all: apply m_cont; intro; mono.
Qed.
Lemma m_callcc_func n n' e args : (n <= n')%nat -> mle (do_callcc_func prim ev n e args) (do_callcc_func prim ev' n' e args).
Proof. intro L. unfold do_callcc_func. mono. apply m_cont; intro; mono. Qed.
Lemma m_cwv n n' e args : (n <= n')%nat -> mle (do_call_with_values prim ev n e args) (do_call_with_values prim ev' n' e args).
Proof. intro L. unfold do_call_with_values. mono. Qed.
Hint Resolve m_callcc_func m_cwv : mono.
Lemma m_expansion e x : mle (run_expansion ev e x) (run_expansion ev' e x).
Proof. unfold run_expansion. mono. Qed.
Lemma m_cond e cs : mle (eval_cond ev e cs) (eval_cond ev' e cs).
Proof. induction cs; cbn; mono. Qed.
Lemma m_case e k cs : mle (eval_case_clauses ev e k cs) (eval_case_clauses ev' e k cs).
Proof. induction cs; cbn; mono. Qed.
Lemma m_inits e de bs : mle (do_inits ev e de bs) (do_inits ev' e de bs).
Proof. induction bs; cbn; mono. Qed.
Lemma m_update de s : mle (update_do ev de s) (update_do ev' de s).
Proof. unfold update_do. mono. Qed.
Lemma m_last e es : forall acc, mle (eval_last ev e es acc) (eval_last ev' e es acc).
Proof. induction es as [|x es IH]; intro acc; cbn; mono; apply IH. Qed.
Hint Resolve m_expansion m_cond m_case m_inits m_update m_last : mono.
Lemma m_loop m : forall m' de t r b s, (m <= m')%nat -> mle (do_loop ev m de t r b s) (do_loop ev' m' de t r b s).
Proof.
  induction m as [|m IH]; intros m' de t r b s L; [apply mle_fuel|].
  destruct m' as [|m']; [lia|]. cbn [do_loop]. mono. all: apply IH; lia.
Qed.
Hint Resolve m_loop : mono.
Lemma m_do n n' e args : (n <= n')%nat -> mle (do_do ev n e args) (do_do ev' n' e args).
Proof. intro L. unfold do_do. mono. Qed.
Lemma m_quasi m : forall m' e p d, (m <= m')%nat -> mle (quasi ev m e p d) (quasi ev' m' e p d).
Proof.
  induction m as [|m IH]; intros m' e p d L; [apply mle_fuel|].
  destruct m' as [|m']; [lia|]. cbn [quasi].
  assert (IH' : forall e p d, mle (quasi ev m e p d) (quasi ev' m' e p d)) by (intros; apply IH; lia).
  mono.
Qed.
Hint Resolve m_do m_quasi : mono.
Lemma m_expand_call ps d b me args : mle (expand_call ev ps d b me args) (expand_call ev' ps d b me args).
Proof. unfold expand_call. mono. Qed.
Hint Resolve m_expand_call : mono.
Lemma m_expand_all m : forall m' e x, (m <= m')%nat -> mle (expand_all ev m e x) (expand_all ev' m' e x).
Proof.
  induction m as [|m IH]; intros m' e x L; [apply mle_fuel|].
  destruct m' as [|m']; [lia|].
  assert (IH' : forall e x, mle (expand_all ev m e x) (expand_all ev' m' e x)) by (intros; apply IH; lia).
  cbn [expand_all]. destruct x; mono.
Qed.
Lemma m_after e x : mle (after_expand ev e x) (after_expand ev' e x).
Proof. unfold after_expand. mono. Qed.
Hint Resolve m_expand_all m_after : mono.
Lemma m_macro n n' e ps d b me args : (n <= n')%nat -> mle (run_macro ev n e ps d b me args) (run_macro ev' n' e ps d b me args).
Proof. intro L. unfold run_macro. mono. Qed.
Lemma m_defmacro e args : mle (do_define_macro ev e args) (do_define_macro ev' e args).
Proof. unfold do_define_macro. mono. Qed.
Lemma m_define e args : mle (do_define ev e args) (do_define ev' e args).
Proof. unfold do_define. mono. Qed.
Lemma m_set e args : mle (do_set_form ev e args) (do_set_form ev' e args).
Proof. unfold do_set_form. mono. Qed.
Lemma m_if e args : mle (do_if ev e args) (do_if ev' e args).
Proof. unfold do_if. mono. Qed.
Lemma m_and e es : mle (do_and ev e es) (do_and ev' e es).
Proof. induction es as [|x [|y r] IH]; cbn [do_and]; mono. Qed.
Lemma m_or e es : mle (do_or ev e es) (do_or ev' e es).
Proof. induction es as [|x [|y r] IH]; cbn [do_or]; mono. Qed.
Hint Resolve m_macro m_defmacro m_define m_set m_if m_and m_or m_do_apply : mono.
Lemma m_special n n' e f args : (n <= n')%nat -> mle (special prim ev n e f args) (special prim ev' n' e f args).
Proof.
  intro L. destruct f; cbn [special]; mono.
  apply m_cont. intro. mono.
Qed.
Hint Resolve m_special : mono.
Lemma m_step n n' e x : (n <= n')%nat -> mle (step prim ev n e x) (step prim ev' n' e x).
Proof. intro L. unfold step. mono. Qed.
End Mono.

Theorem eval_mono prim : forall n n' e x, (n <= n')%nat -> mle (eval prim n e x) (eval prim n' e x).
Proof.
  induction n as [|n IH]; intros n' e x L; [apply mle_fuel|].
  destruct n' as [|n']; [lia|].
  cbn [eval]. apply m_step; [|lia]. intros. apply IH. lia.
Qed.
