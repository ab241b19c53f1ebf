(** From fuel to behaviours. *)
From Coq Require Import String Lia Setoid Morphisms.
From Verif Require Import Base ParseModel PrintModel EnvModel EnvSpec EnvProofs EvalModel EvalMono EvalSpec.
Local Open Scope list_scope.

Definition lim {A} (M : nat -> EM A) : Beh A := fun st o => exists n, M n st = o /\ o <> OFuel.
Definition monotone {A} (M : nat -> EM A) : Prop := forall n n', (n <= n')%nat -> mle (M n) (M n').
Definition beqv {A} (b1 b2 : Beh A) : Prop := forall st o, b1 st o <-> b2 st o.
Infix "==" := beqv (at level 70).
Global Instance beqv_equiv {A} : Equivalence (@beqv A).
Proof.
  split.
  - intros b st o. tauto.
  - intros b1 b2 H st o. symmetry. apply H.
  - intros b1 b2 b3 H1 H2 st o. rewrite (H1 st o). apply H2.
Qed.
Global Instance andthen_proper {A B} : Proper (beqv ==> pointwise_relation A beqv ==> beqv) (@andthen A B).
Proof.
  intros m m' Hm k k' Hk st o. unfold andthen. split; intros [(a & s & H1 & H2)|(o1 & H1 & H2)].
  - left. exists a, s. split; [now apply Hm|now apply Hk].
  - right. exists o1. split; [now apply Hm|auto].
  - left. exists a, s. split; [now apply Hm|now apply Hk].
  - right. exists o1. split; [now apply Hm|auto].
Qed.
Lemma andthen_cong {A B} (m m' : Beh A) (k k' : A -> Beh B) : m == m' -> (forall a, k a == k' a) -> andthen m k == andthen m' k'.
Proof. intros H1 H2. apply andthen_proper; auto. Qed.
Lemma andthen_returns {A B} (a : A) (k : A -> Beh B) : andthen (returns a) k == k a.
Proof.
  intros st o. unfold andthen, returns. split.
  - intros [(b & s & E & H)|(o1 & E & H)]; [injection E as -> ->; auto|subst; inversion H].
  - intro H. left. eauto.
Qed.
Lemma andthen_effect {B} f (k : unit -> Beh B) st o : andthen (effect f) k st o <-> k tt (f st) o.
Proof.
  unfold andthen, effect. split.
  - intros [(b & s & E & H)|(o1 & E & H)]; [injection E as -> ->; auto|subst; inversion H].
  - intro H. left. eauto.
Qed.
Lemma andthen_new {B} pe (k : env -> Beh B) st o : andthen (new_frame pe) k st o <->
  k (mkEnv (length (s_frames st) :: e_chain pe) (e_mod pe)) (snd (make_env st pe)) o.
Proof.
  unfold andthen, new_frame. split.
  - intros [(b & s & E & H)|(o1 & E & H)]; [injection E as -> ->; auto|subst; inversion H].
  - intro H. left. eauto.
Qed.
Lemma stops_trans {A B C} (a : out A) (b : out B) (c : out C) : stops a b -> stops b c -> stops a c.
Proof. destruct 1; intro H; inversion H; constructor. Qed.
Lemma stops_self {A B} (a : out A) (b : out B) : stops a b -> stops a a.
Proof. destruct 1; constructor. Qed.
Lemma stops_split {A B C} (a : out A) (c : out C) : stops a c -> exists b : out B, stops a b /\ stops b c.
Proof. destruct 1; eexists; split; constructor. Qed.
Lemma andthen_assoc {A B C} (m : Beh A) (f : A -> Beh B) (g : B -> Beh C) :
  andthen (andthen m f) g == andthen m (fun a => andthen (f a) g).
Proof.
  intros st o. unfold andthen. split.
  - intros [(b & s & [(a & s1 & H1 & H2)|(o1 & H1 & H2)] & H3)|(o2 & [(a & s1 & H1 & H2)|(o1 & H1 & H2)] & H3)].
    + left. exists a, s1. split; auto. left. eauto.
    + inversion H2.
    + left. exists a, s1. split; auto. right. eauto.
    + right. exists o1. split; eauto using stops_trans.
  - intros [(a & s1 & H1 & [(b & s & H2 & H3)|(o1 & H2 & H3)])|(o1 & H1 & H2)].
    + left. exists b, s. split; auto. left. eauto.
    + right. exists o1. split; auto. left. eauto.
    + destruct (@stops_split _ B _ _ _ H2) as (o2 & H3 & H4). right. exists o2. split; auto. right. eauto.
Qed.

Lemma lim_ret {A} (a : A) : lim (fun _ => ret a) == returns a.
Proof. intros st o. unfold lim, ret, returns. split; [intros (n & <- & _); auto|intros ->; exists O; split; [auto|discriminate]]. Qed.
Lemma lim_modify f : lim (fun _ => modify f) == effect f.
Proof. intros st o. unfold lim, modify, effect. split; [intros (n & <- & _); auto|intros ->; exists O; split; [auto|discriminate]]. Qed.
Lemma lim_alloc pe : lim (fun _ => alloc_frame pe) == new_frame pe.
Proof. intros st o. unfold lim, alloc_frame, new_frame, make_env. split; [intros (n & <- & _); auto|intros ->; exists O; split; [auto|discriminate]]. Qed.
Lemma throw_not_fuel {A} k a st : @throw A k a st <> OFuel.
Proof. unfold throw. destruct (find_handler _ _ _); discriminate. Qed.
Lemma lim_err {A} : lim (fun _ => @err A) == raises.
Proof.
  intros st o. unfold lim, raises. split; [intros (n & <- & _); auto|intros ->; exists O; split; [auto|apply throw_not_fuel]].
Qed.
Lemma lim_abort {A} : lim (fun _ => @abort A) == asserts.
Proof. intros st o. unfold lim, asserts, abort. split; [intros (n & <- & _); auto|intros ->; exists O; split; [auto|discriminate]]. Qed.
Lemma lim_bind {A B} (M : nat -> EM A) (K : nat -> A -> EM B) : monotone M -> (forall a, monotone (fun n => K n a)) ->
  lim (fun n => ebind (M n) (K n)) == andthen (lim M) (fun a => lim (fun n => K n a)).
Proof.
  intros HM HK st o. unfold lim, andthen. split.
  - intros (n & E & NF). unfold ebind in E. destruct (M n st) as [a s|j k a s|k v s|s| | |] eqn:F; subst;
      try (right; eexists; split; [exists n; split; [exact F|discriminate]|constructor]).
    + left. exists a, s. split; [exists n; split; [auto|discriminate]|]. exists n. auto.
    + congruence.
  - intros [(a & s & (n1 & E1 & _) & (n2 & E2 & NF))|(o1 & (n & E & NF) & S)].
    + exists (Nat.max n1 n2). unfold ebind.
      destruct (HM n1 (Nat.max n1 n2) ltac:(lia) st) as [F|F]; rewrite E1 in F; [discriminate|]. rewrite <- F.
      destruct (HK a n2 (Nat.max n1 n2) ltac:(lia) s) as [G|G]; rewrite E2 in G; [congruence|]. rewrite <- G. auto.
    + exists n. unfold ebind. rewrite E. inversion S; subst; split; auto; discriminate.
Qed.
Lemma lim_ext {A} (M M' : nat -> EM A) : (forall n st, M n st = M' n st) -> lim M == lim M'.
Proof. intros H st o. unfold lim. split; intros (n & E & N); exists n; [rewrite <- H|rewrite H]; auto. Qed.
Lemma lim_gets {A B} (f : state -> A) (K : nat -> A -> EM B) st o :
  lim (fun n => ebind (gets f) (K n)) st o <-> lim (fun n => K n (f st)) st o.
Proof. reflexivity. Qed.

Section Rules.
Variable prim : list Z -> list val -> pres.
Notation run := (runs prim).
Notation EV n := (eval prim n) (only parsing).

Lemma hev n n' : (n <= n')%nat -> forall e x, mle (eval prim n e x) (eval prim n' e x).
Proof. intros. now apply eval_mono. Qed.
Lemma mono_eval e x : monotone (fun n => eval prim n e x).
Proof. intros n n' L. now apply hev. Qed.
Lemma mono_const {A} (m : EM A) : monotone (fun _ => m). Proof. intros n n' L. apply mle_refl. Qed.
Lemma mono_bind {A B} (M : nat -> EM A) (K : nat -> A -> EM B) : monotone M -> (forall a, monotone (fun n => K n a)) ->
  monotone (fun n => ebind (M n) (K n)).
Proof. intros HM HK n n' L. apply mle_bind; [now apply HM|intro a; now apply HK]. Qed.

(* one step of evaluation *)
Lemma runs_step e x st o : run e x st o <-> lim (fun n => step prim (eval prim n) n e x) st o.
Proof.
  unfold runs, lim. split.
  - intros ([|n] & E & N); cbn [eval] in E; [unfold fuel in E; congruence|]. eauto.
  - intros (n & E & N). exists (S n). auto.
Qed.
Lemma run_lim e x : run e x == lim (fun n => eval prim n e x).
Proof. intros st o. reflexivity. Qed.

Lemma runs_det e x st o1 o2 : run e x st o1 -> run e x st o2 -> o1 = o2.
Proof.
  intros (n1 & E1 & N1) (n2 & E2 & N2).
  destruct (eval_mono prim n1 (Nat.max n1 n2) e x ltac:(lia) st) as [F|F]; [congruence|].
  destruct (eval_mono prim n2 (Nat.max n1 n2) e x ltac:(lia) st) as [G|G]; congruence.
Qed.

(* a special form *)
Lemma runs_special e k f args st o : plain e k st -> form_of (bs k) = Some f ->
  (run e (form_ k args) st o <-> lim (fun n => special prim (eval prim n) n e f args) st o).
Proof.
  intros P F. rewrite runs_step.
  assert (E : forall n, step prim (eval prim n) n e (form_ k args) st = special prim (eval prim n) n e f args st).
  { intro n. unfold form_, sym. cbn [step]. unfold ebind at 1, gets. 
    specialize (P (match head_value st e (bs k) with Some v => v | None => VNil end)).
    destruct (head_value st e (bs k)) as [[]|]; rewrite ?F; auto. specialize (P eq_refl). discriminate. }
  unfold lim. split; intros (n & H & N); exists n; [rewrite <- E|rewrite E]; auto.
Qed.
(* a symbol in operator position *)
Lemma runs_operator e f args d v st o : head_value st e f = Some v \/ (head_value st e f = None /\ env_search st e f = Some v) ->
  is_macro v = false -> form_of f = None ->
  (run e (VList (VSym f :: args) d) st o <-> run e (VList (v :: args) (match args with [] => false | _ => d end)) st o).
Proof.
  intros H M F. rewrite runs_step.
  assert (E : forall n, step prim (eval prim n) n e (VList (VSym f :: args) d) st =
              eval prim n e (VList (v :: args) (match args with [] => false | _ => d end)) st).
  { intro n. cbn [step]. unfold ebind at 1, gets. rewrite F. destruct H as [H|[H1 H2]].
    - rewrite H. unfold ebind, ret. destruct v; auto. discriminate.
    - rewrite H1. unfold ebind, lookup, gets. cbn. rewrite H2. reflexivity. }
  unfold lim, runs. split; intros (n & H1 & N); exists n; [rewrite <- E|rewrite E]; auto.
Qed.
(* an expression in operator position *)
Lemma runs_operator_expr e h hd args d st o :
  (run e (VList (VList h hd :: args) d) st o <->
   (f <~ run e (VList h hd) ;; run e (VList (f :: args) (match args with [] => false | _ => d end))) st o).
Proof.
  rewrite runs_step. cbn [step]. revert st o.
  apply (lim_bind (fun n => eval prim n e (VList h hd)) (fun n f => eval prim n e (VList (f :: args) _))).
  - apply mono_eval.
  - intro. apply mono_eval.
Qed.

Lemma mono_args e es : monotone (fun n => eval_args (eval prim n) e es).
Proof. intros n n' L. apply m_args. now apply hev. Qed.
Lemma mono_body e es : monotone (fun n => eval_body (eval prim n) e es).
Proof. intros n n' L. apply m_body. now apply hev. Qed.
Lemma lim_args e es : lim (fun n => eval_args (eval prim n) e es) == args_run prim e es.
Proof.
  induction es as [|x r IH]; [apply lim_ret|]. cbn [eval_args args_run].
  rewrite lim_bind; [|apply mono_eval|intro a; apply mono_bind; [apply mono_args|intro; apply mono_const]].
  apply andthen_cong; [reflexivity|]. intro v.
  rewrite lim_bind; [|apply mono_args|intro; apply mono_const].
  apply andthen_cong; [apply IH|]. intro vs. apply lim_ret.
Qed.
Lemma lim_body e es : lim (fun n => eval_body (eval prim n) e es) == body_run prim e es.
Proof.
  induction es as [|x [|y r] IH].
  - apply lim_abort.
  - reflexivity.
  - change (lim (fun n => ebind (eval prim n e x) (fun _ => eval_body (eval prim n) e (y :: r))) ==
            (_ <~ run e x ;; body_run prim e (y :: r))).
    rewrite lim_bind; [|apply mono_eval|intro; apply mono_body]. apply andthen_cong; [reflexivity|]. intros _. apply IH.
Qed.

(** ** calls *)
Lemma lim_bindl ce fe : forall xs rest args, (rest = None \/ (length xs <= length args)%nat) -> (xs <> [] \/ rest = None) ->
  lim (fun n => ebind (bind_loop (eval prim n) ce fe (match rest with Some _ => true | None => false end)
                        (map VSym xs ++ match rest with Some r => [VSym r] | None => [] end) args)
                (fun ok => if ok then ret tt else err)) == bind_run prim ce fe xs rest args.
Proof.
  assert (MB : forall rest ps args, monotone (fun n => bind_loop (eval prim n) ce fe rest ps args)).
  { intros rest ps args n n' L. apply m_bind. now apply hev. }
  induction xs as [|x xs IH]; intros rest args H NE.
  - destruct NE as [NE| ->]; [congruence|]. cbn [bind_run map app].
    destruct args; cbn [bind_loop]; [apply lim_ret|apply lim_err].
  - destruct args as [|a args].
    + cbn in H. destruct H as [-> |]; [|lia]. cbn [bind_run map app bind_loop]. apply lim_err.
    + cbn [bind_run map app bind_loop is_sym].
      assert (EQ : lim (fun n : nat =>
         ebind (ebind (eval prim n ce a) (fun v => ebind (insert fe x v) (fun _ =>
            match (if match rest with Some _ => true | None => false end then map VSym xs ++ match rest with Some r => [VSym r] | None => [] end else []) with
            | [VSym y] => let! vs := eval_args (eval prim n) ce args in let! _ := insert fe y (mklist vs) in ret true
            | _ => bind_loop (eval prim n) ce fe match rest with Some _ => true | None => false end
                     (map VSym xs ++ match rest with Some r => [VSym r] | None => [] end) args
            end))) (fun ok => if ok then ret tt else err)) ==
         (v <~ run ce a ;; _ <~ binds fe x v ;; bind_run prim ce fe xs rest args)).
      { destruct (match xs with [] => rest | _ => None end) as [r|] eqn:X.
        - destruct xs; [|discriminate]. subst rest. cbn [map app].
          transitivity (lim (fun n => ebind (eval prim n ce a) (fun v => ebind (insert fe x v) (fun _ =>
             ebind (eval_args (eval prim n) ce args) (fun vs => insert fe r (mklist vs)))))).
          { apply lim_ext. intros n st. unfold ebind, ret, insert, modify. destruct (eval prim n ce a st); auto.
            destruct (eval_args _ _ _ _); auto. }
          rewrite lim_bind; [|apply mono_eval|intro; apply mono_bind; [apply mono_const|intro; apply mono_bind; [apply mono_args|intro; apply mono_const]]].
          apply andthen_cong; [reflexivity|]. intro v.
          rewrite lim_bind; [|apply mono_const|intro; apply mono_bind; [apply mono_args|intro; apply mono_const]].
          apply andthen_cong; [apply lim_modify|]. intros _. cbn [bind_run].
          rewrite lim_bind; [|apply mono_args|intro; apply mono_const].
          apply andthen_cong; [apply lim_args|]. intro vs. apply lim_modify.
        - transitivity (lim (fun n => ebind (eval prim n ce a) (fun v => ebind (insert fe x v) (fun _ =>
             ebind (bind_loop (eval prim n) ce fe match rest with Some _ => true | None => false end
                     (map VSym xs ++ match rest with Some r => [VSym r] | None => [] end) args) (fun ok => if ok then ret tt else err))))).
          { apply lim_ext. intros n st. unfold ebind, insert, modify. destruct (eval prim n ce a st); auto.
            destruct xs as [|x1 [|x2 xs]].
            - subst rest. reflexivity.
            - destruct rest; reflexivity.
            - destruct rest; reflexivity. }
          rewrite lim_bind; [|apply mono_eval|intro; apply mono_bind; [apply mono_const|intro; apply mono_bind; [apply MB|intro; apply mono_const]]].
          apply andthen_cong; [reflexivity|]. intro v.
          rewrite lim_bind; [|apply mono_const|intro; apply mono_bind; [apply MB|intro; apply mono_const]].
          apply andthen_cong; [apply lim_modify|]. intros _. apply IH.
          + cbn in H. destruct H; auto. right. lia.
          + destruct xs; [right; auto|left; discriminate]. }
      exact EQ.
Qed.
Lemma lim_apply ce xs rest body pe args : (rest = None \/ (length xs <= length args)%nat) ->
  lim (fun n => match closure xs rest body pe with VProc ps d b pe => apply_proc (eval prim n) ce ps d b pe args | _ => err end) ==
  call_run prim ce xs rest body pe args.
Proof.
  intro H. unfold call_run.
  assert (MB : forall fe rest ps args, monotone (fun n => bind_loop (eval prim n) ce fe rest ps args)).
  { intros fe rst ps as_ n n' L. apply m_bind. now apply hev. }
  destruct (match xs with [] => rest | _ => None end) as [r|] eqn:X.
  - destruct xs; [|discriminate]. subst rest. 
    transitivity (lim (fun n => ebind (alloc_frame pe) (fun fe => ebind (eval_args (eval prim n) ce args) (fun vs =>
      ebind (insert fe r (mklist vs)) (fun _ => eval_body (eval prim n) fe body))))); [apply lim_ext; reflexivity|].
    rewrite lim_bind; [|apply mono_const|intro; apply mono_bind; [apply mono_args|intro; apply mono_bind; [apply mono_const|intro; apply mono_body]]].
    apply andthen_cong; [apply lim_alloc|]. intro fe. cbn [bind_run]. rewrite andthen_assoc.
    rewrite lim_bind; [|apply mono_args|intro; apply mono_bind; [apply mono_const|intro; apply mono_body]].
    apply andthen_cong; [apply lim_args|]. intro vs.
    rewrite lim_bind; [|apply mono_const|intro; apply mono_body].
    apply andthen_cong; [apply lim_modify|]. intros _. apply lim_body.
  - set (r := match rest with Some _ => true | None => false end).
    set (ps := map VSym xs ++ match rest with Some r => [VSym r] | None => [] end).
    transitivity (lim (fun n => ebind (alloc_frame pe) (fun fe => ebind (ebind (bind_loop (eval prim n) ce fe r ps args)
      (fun ok => if ok then ret tt else err)) (fun _ => eval_body (eval prim n) fe body)))).
    { apply lim_ext. intros n st. unfold closure, apply_proc.
      assert (HR : forall q, has_rest (map VSym xs ++ [VSym q]) true = true).
      { intro q. unfold has_rest. rewrite last_last. reflexivity. }
      destruct rest as [q|]; cbn match.
      - rewrite HR. unfold ebind. destruct (alloc_frame pe st); auto. destruct xs as [|x1 [|x2 xs]]; [discriminate| |];
          cbn [map app]; fold ps; unfold ps, r;
          destruct (bind_loop _ _ _ _ _ _ _) as [[] ?| | | | | |]; auto; unfold err, throw, ret; destruct (find_handler _ _ _); auto.
      - unfold ps, r. rewrite app_nil_r. unfold ebind. destruct (alloc_frame pe st); auto. cbn [has_rest andb].
        destruct (bind_loop _ _ _ _ _ _ _) as [[] ?| | | | | |]; auto; unfold err, throw, ret; destruct (find_handler _ _ _); auto. }
    rewrite lim_bind; [|apply mono_const|intro; apply mono_bind; [apply mono_bind; [apply MB|intro; apply mono_const]|intro; apply mono_body]].
    apply andthen_cong; [apply lim_alloc|]. intro fe.
    rewrite lim_bind; [|apply mono_bind; [apply MB|intro; apply mono_const]|intro; apply mono_body].
    apply andthen_cong; [|intros _; apply lim_body].
    apply lim_bindl; auto. destruct xs; [right|left]; congruence.
Qed.
Lemma runs_call e xs rest body pe args d : (rest = None \/ (length xs <= length args)%nat) ->
  run e (VList (closure xs rest body pe :: args) d) == call_run prim e xs rest body pe args.
Proof.
  intros H st o. rewrite runs_step, <- (lim_apply e xs rest body pe args H st o). unfold closure. destruct rest; reflexivity.
Qed.
End Rules.
