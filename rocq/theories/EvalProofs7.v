(** Macros, apply on primitives, map on primitives. *)
From Coq Require Import String Lia Setoid Morphisms.
From Verif Require Import Base ParseModel PrintModel EnvModel EnvSpec EnvProofs EvalModel EvalMono EvalInv EvalInv2 EvalInv3 EvalSpec EvalProofs
  EvalProofs2 EvalProofs3 EvalProofs4 EvalProperties EvalProofs5 EvalProofs6.
Local Open Scope string_scope.
Local Open Scope list_scope.

Section Macros.
Variable prim : list Z -> list val -> pres.
Notation run := (runs prim).

Definition isrest (rest : option (list Z)) : bool := match rest with Some _ => true | None => false end.
Definition pars (xs : list (list Z)) (rest : option (list Z)) : list val := map VSym xs ++ match rest with Some r => [VSym r] | None => [] end.
Lemma bind_macro_run fe : forall xs rest ops, (rest = None \/ (length xs <= length ops)%nat) -> (xs <> [] \/ rest = None) ->
  lim (fun _ => ebind (bind_macro fe (isrest rest) (pars xs rest) ops) (fun ok => if ok then ret tt else err)) == bind_vals fe xs rest ops.
Proof.
  unfold pars. induction xs as [|x xs IH]; intros rest ops H NE.
  - destruct NE as [NE| ->]; [congruence|]. cbn [bind_vals map app isrest]. destruct ops; cbn [bind_macro]; [apply lim_ret|apply lim_err].
  - destruct ops as [|a ops].
    + cbn in H. destruct H as [-> |]; [|lia]. cbn [bind_vals map app bind_macro isrest]. apply lim_err.
    + destruct (match xs with [] => rest | _ => None end) as [r|] eqn:X.
      * destruct xs; [|discriminate]. subst rest. cbn [map app bind_vals].
        transitivity (lim (fun _ => ebind (insert fe x a) (fun _ => insert fe r (mklist ops)))); [apply lim_ext; reflexivity|].
        rewrite (lim_bind (fun _ => insert fe x a) (fun _ _ => insert fe r (mklist ops)) (mono_const _) (fun _ => mono_const _)).
        apply andthen_cong; [apply lim_modify|]. intros _. apply lim_modify.
      * transitivity (lim (fun _ => ebind (insert fe x a) (fun _ => ebind (bind_macro fe (isrest rest) (map VSym xs ++ match rest with Some r => [VSym r] | None => [] end) ops)
             (fun ok => if ok then ret tt else err)))).
        { apply lim_ext. intros n st. destruct xs as [|x1 [|x2 xs]]; [subst rest|destruct rest|destruct rest]; reflexivity. }
        rewrite (lim_bind (fun _ => insert fe x a) _ (mono_const _) (fun _ => mono_const _)). cbn [bind_vals].
        apply andthen_cong; [apply lim_modify|]. intros _. apply IH.
        -- cbn in H. destruct H; auto. right. lia.
        -- destruct xs; [right; auto|left; discriminate].
Qed.
Lemma has_rest_pars xs rest : has_rest (pars xs rest) (isrest rest) = isrest rest.
Proof. unfold pars. destruct rest; [|reflexivity]. cbn [isrest]. unfold has_rest. now rewrite last_last. Qed.
Lemma lim_expand xs rest body me ops : (rest = None \/ (length xs <= length ops)%nat) ->
  lim (fun n => expand_call (eval prim n) (pars xs rest) (isrest rest) body me ops) == call_vals prim xs rest body me ops.
Proof.
  intro H. unfold call_vals. destruct (match xs with [] => rest | _ => None end) as [r|] eqn:X.
  - destruct xs; [|discriminate]. subst rest.
    transitivity (lim (fun n => ebind (alloc_frame me) (fun fe => ebind (insert fe r (mklist ops)) (fun _ => eval_body (eval prim n) fe body)))); [apply lim_ext; reflexivity|].
    rewrite lim_bind; [|apply mono_const|intro; apply mono_bind; [apply mono_const|intro; apply mono_body]].
    apply andthen_cong; [apply lim_alloc|]. intro fe. cbn [bind_vals].
    rewrite lim_bind; [|apply mono_const|intro; apply mono_body].
    apply andthen_cong; [apply lim_modify|]. intros _. apply lim_body.
  - transitivity (lim (fun n => ebind (alloc_frame me) (fun fe => ebind (ebind (bind_macro fe (isrest rest) (pars xs rest) ops)
      (fun ok => if ok then ret tt else err)) (fun _ => eval_body (eval prim n) fe body)))).
    { apply lim_ext. intros n st. unfold expand_call. rewrite has_rest_pars.
      unfold ebind. destruct (alloc_frame me st) as [fe s| | | | | |]; auto.
      assert (G : (if isrest rest then pars xs rest else []) = [] \/ exists p q l, (if isrest rest then pars xs rest else []) = p :: q :: l).
      { destruct rest as [r|]; [right|now left]. unfold pars. destruct xs as [|x1 [|x2 xs]]; [discriminate| |]; cbn; eauto. }
      destruct G as [-> |(p & q & l & ->)].
      - destruct (bind_macro _ _ _ _ _) as [[] ?| | | | | |]; auto; unfold err, throw, ret; destruct (find_handler _ _ _); auto.
      - destruct p; destruct (bind_macro _ _ _ _ _) as [[] ?| | | | | |]; auto; unfold err, throw, ret; destruct (find_handler _ _ _); auto. }
    rewrite lim_bind; [|apply mono_const|intro; apply mono_bind; [apply mono_const|intro; apply mono_body]].
    apply andthen_cong; [apply lim_alloc|]. intro fe.
    rewrite lim_bind; [|apply mono_const|intro; apply mono_body].
    apply andthen_cong; [|intros _; apply lim_body]. apply bind_macro_run; auto. destruct xs; [right|left]; congruence.
Qed.
(* after the transformer has answered *)
Definition finish (e : env) (y : val) : Beh val := lim (fun n => ebind (expand_all (eval prim n) n e y) (after_expand (eval prim n) e)).
Lemma mono_expand e y : monotone (fun n => expand_all (eval prim n) n e y).
Proof. intros n n' L. apply m_expand_all; auto. now apply hev. Qed.
Lemma mono_after e y : monotone (fun n => after_expand (eval prim n) e y).
Proof. intros n n' L. apply m_after. now apply hev. Qed.
Lemma runs_macro e m ops d xs rest body me st o : head_value st e m = Some (VMacro (pars xs rest) (isrest rest) body me) ->
  (rest = None \/ (length xs <= length ops)%nat) ->
  (run e (VList (VSym m :: ops) d) st o <-> (y <~ call_vals prim xs rest body me ops ;; finish e y) st o).
Proof.
  intros H L. rewrite runs_step. cbn [step].
  etransitivity; [apply (lim_gets (fun st => head_value st e m))|]. rewrite H.
  unfold run_macro.
  etransitivity.
  { apply lim_bind.
    - intros n n' K. apply m_expand_call. now apply hev.
    - intro y. apply mono_bind; [apply mono_expand|intro; apply mono_after]. }
  refine (andthen_cong _ _ _ _ (lim_expand xs rest body me ops L) _ st o). intro y. reflexivity.
Qed.

(** ** a finished expansion *)
Fixpoint vsize (v : val) : nat := match v with VList l _ => S (fold_right (fun x n => vsize x + n) 0 l)%nat | _ => 1%nat end.
Lemma expand_id e st : forall m x, (vsize x < m)%nat -> no_macros e st x -> expand_all (eval prim m) m e x st = Ret x st.
Proof.
  assert (G : forall (ev : env -> val -> EM val) m x, (vsize x < m)%nat -> no_macros e st x -> expand_all ev m e x st = Ret x st).
  { intro ev. induction m as [|m IH]; intros x L N; [lia|]. cbn [expand_all].
    destruct x as [| | | | | | |[|h t] d| | | | | | |]; try reflexivity.
    assert (NL : Forall (no_macros e st) (h :: t) /\ match h with VSym s => match env_exist st e s with Some v => is_macro v = false | None => True end | _ => True end).
    { cbn [no_macros] in N. destruct N as [N1 N2]. split; [|destruct h; auto].
      assert (AL : forall l, (fix all (l : list val) : Prop := match l with [] => True | y :: r => no_macros e st y /\ all r end) l -> Forall (no_macros e st) l).
      { clear. induction l as [|y l IH]; intro K; [constructor|]. destruct K as [K1 K2]. constructor; [exact K1|exact (IH K2)]. }
      exact (AL (h :: t) N2). }
    destruct NL as [NL NH].
    assert (M : mapM (expand_all ev m e) (h :: t) st = Ret (h :: t) st).
    { cbn [vsize] in L. revert NL L. generalize (h :: t). intro l. clear -IH.
      induction l as [|y l IHl]; intros NL L; [reflexivity|]. cbn [fold_right] in L. inversion NL; subst. cbn [mapM].
      unfold ebind at 1. rewrite (IH y) by (auto; lia). unfold ebind. rewrite IHl by (auto; lia). reflexivity. }
    destruct h; unfold ebind at 1, ret, gets; try (unfold ebind; rewrite M; reflexivity).
    destruct (env_exist st e n) as [w|]; [|unfold ebind; rewrite M; reflexivity].
    destruct w; cbn in NH; try discriminate; unfold ebind; rewrite M; reflexivity. }
  intros m x. apply G.
Qed.
Lemma finish_id e y st o : no_macros e st y -> (finish e y st o <-> lim (fun n => after_expand (eval prim n) e y) st o).
Proof.
  intro N. unfold finish. etransitivity; [apply lim_bind; [apply mono_expand|intro; apply mono_after]|].
  assert (R : lim (fun n => expand_all (eval prim n) n e y) st (Ret y st)).
  { exists (S (vsize y)). split; [|discriminate]. apply expand_id; auto. }
  assert (U : forall o1, lim (fun n => expand_all (eval prim n) n e y) st o1 -> o1 = Ret y st).
  { intros o1 (n & E & K). destruct R as (n2 & E2 & K2).
    pose proof (mono_expand e y n (Nat.max n n2) ltac:(lia) st) as [G|G]; [congruence|].
    pose proof (mono_expand e y n2 (Nat.max n n2) ltac:(lia) st) as [G2|G2]; congruence. }
  split.
  - intros [(a & s & H1 & H2)|(o1 & H1 & H2)]; apply U in H1; [injection H1 as -> ->; exact H2|subst; inversion H2].
  - intro K. left. exists y, st. auto.
Qed.
Lemma after_pair e h t d : lim (fun n => after_expand (eval prim n) e (VList (h :: t) d)) ==
  match t, h with
  | [], (VSym _ | VProc _ _ _ _ | VFunc _ _ | VCont _ _ | VList _ _) | _ :: _, _ => run e (VList (h :: t) d)
  | [], _ => returns h
  end.
Proof. destruct t; [|apply lim_ext; intros; destruct h; reflexivity]. destruct h; first [apply lim_ret|apply lim_ext; reflexivity]. Qed.
Lemma after_other e y : match y with VList _ _ => False | _ => True end -> lim (fun n => after_expand (eval prim n) e y) == returns y.
Proof. intro H. destruct y; try apply lim_ret. destruct H. Qed.

(** ** apply on a primitive *)
Lemma runs_apply_prim e pf args l st nm ar st1 lv els st2 vs st3 o : plain e "apply" st ->
  run e pf st (Ret (VFunc nm ar) st1) -> run e l st1 (Ret lv st2) -> elements lv = Some els ->
  args_run prim e args st2 (Ret vs st3) -> calls_back nm = false -> (-2 <= ar <= 3)%Z ->
  (run e (form_ "apply" (pf :: args ++ [l])) st o <-> (ws <~ args_run prim e (vs ++ map quoted els) ;; prim_run prim nm ar ws) st3 o).
Proof.
  intros P Hf Hl E Ha C A. rewrite (runs_special prim e "apply" FApply _ st o P eq_refl). cbn [special].
  assert (GO : (ws <~ args_run prim e (vs ++ map quoted els) ;; prim_run prim nm ar ws) ==
    lim (fun n => ebind (eval_args (eval prim n) e (vs ++ map quoted els)) (fun ws => call_func prim (eval prim n) n nm ar ws))).
  { rewrite lim_bind; [|apply mono_args|intro; apply (mono_func prim)]. apply andthen_cong; [symmetry; apply lim_args|]. intro ws. symmetry. now apply lim_prim. }
  rewrite (GO st3 o).
  assert (N1 : beq nm (bs "apply") = false /\ beq nm (bs "map") = false /\ is_callcc nm = false).
  { unfold calls_back in C. cbn [map existsb] in C. unfold is_callcc.
    repeat match type of C with (_ || _) = false => apply orb_false_iff in C; let C' := fresh "C" in destruct C as [C' C] end.
    repeat match goal with H : beq ?a nm = false |- _ => assert (beq nm a = false) by (destruct (beq_spec a nm), (beq_spec nm a); congruence); clear H end.
    repeat match goal with H : beq nm _ = false |- _ => rewrite H end. auto. }
  destruct N1 as (N1 & N2 & N3).
  destruct Hf as (n1 & Hf & _), Hl as (n2 & Hl & _). apply (lim_args prim e args st2 _) in Ha. destruct Ha as (n3 & Ha & _).
  assert (MF : monotone (fun n => do_apply prim (eval prim n) n n e (pf :: args ++ [l]))) by (intros m m' L; apply m_do_apply; auto; now apply hev).
  set (G := fun n => ebind (eval_args (eval prim n) e (vs ++ map quoted els)) (fun ws => call_func prim (eval prim n) n nm ar ws)).
  assert (MG : monotone G) by (apply mono_bind; [apply mono_args|intro; apply (mono_func prim)]).
  set (N := S (Nat.max n1 (Nat.max n2 n3))).
  assert (EQ : forall n, (N <= n)%nat -> do_apply prim (eval prim n) n n e (pf :: args ++ [l]) st = G n st3).
  { intros n L. destruct n as [|n]; [unfold N in L; lia|]. cbn [do_apply]. unfold ebind at 1.
    pose proof (mono_eval prim e pf n1 (S n) ltac:(unfold N in L; lia) st) as [X|X]; [congruence|]. rewrite <- X, Hf.
    pose proof (mono_eval prim e l n2 (S n) ltac:(unfold N in L; lia) st1) as [Y|Y]; [congruence|].
    pose proof (mono_args prim e args n3 (S n) ltac:(unfold N in L; lia) st2) as [Z|Z]; [congruence|].
    unfold G.
    pose proof (last_last args l VNone) as HL. pose proof (removelast_last args l) as HR.
    assert (NA : args ++ [l] <> []) by (destruct args; discriminate).
    destruct (args ++ [l]) as [|a r]; [congruence|]. rewrite HL, HR. unfold ebind at 1. rewrite <- Y, Hl, E. unfold ebind at 1. rewrite <- Z, Ha.
    rewrite N1, N2, N3. reflexivity. }
  change (lim (fun n => do_apply prim (eval prim n) n n e (pf :: args ++ [l])) st o <-> lim G st3 o).
  split; intros (n & R & K).
  - exists (Nat.max n N). split; [|auto]. rewrite <- EQ by lia. destruct (MF n (Nat.max n N) ltac:(lia) st) as [X|X]; congruence.
  - exists (Nat.max n N). split; [|auto]. rewrite EQ by lia. destruct (MG n (Nat.max n N) ltac:(lia) st3) as [X|X]; congruence.
Qed.
End Macros.
