(** C57, C121, C194: the keys of case on compound data, for-each with a
    primitive, call/cc under another name.  Vocabulary: EvalSpec. *)
From Coq Require Import String Lia.
From Verif Require Import Base ParseModel PrintModel EnvModel EnvSpec EnvProofs EvalModel EvalMono EvalInv EvalInv2 EvalInv3 EvalSpec EvalProofs
  EvalProofs2 EvalProofs3 EvalProofs4 EvalWitness EvalProperties EvalProofs5 EvalProofs6 EvalProofs7 EvalProperties2 EvalProperties4.
Local Open Scope string_scope.
Local Open Scope list_scope.

(** * C57. Which datum of a clause a key selects.  [alike]: the same data, except
    that whether the last element of a list stands behind a dot is not looked at. *)
Inductive alike : val -> val -> Prop :=
| al_none : alike VNone VNone
| al_nil : alike VNil VNil
| al_bool b : alike (VBool b) (VBool b)
| al_int i : alike (VInt i) (VInt i)
| al_char c : alike (VChar c) (VChar c)
| al_str s : alike (VStr s) (VStr s)
| al_sym s : alike (VSym s) (VSym s)
| al_list l m d d' : Forall2 alike l m -> alike (VList l d) (VList m d')
| al_vec l m : Forall2 alike l m -> alike (VVec l) (VVec m).
Lemma beq_true_iff a b : beq a b = true <-> a = b.
Proof. destruct (beq_spec a b); split; intro H; try discriminate; auto; contradiction. Qed.
Theorem c57_case_key_data : forall k d, val_eq k d = true <-> alike k d.
Proof.
  fix go 1. intros k d.
  assert (L : forall l m, (fix all (l1 l2 : list val) {struct l1} : bool :=
      match l1, l2 with [], [] => true | x :: r1, y :: r2 => val_eq x y && all r1 r2 | _, _ => false end) l m = true <-> Forall2 alike l m).
  { clear k d. fix gl 1. intros l m. destruct l as [|x l], m as [|y m]; split; intro H; try discriminate; try (inversion H; fail); auto.
    - apply andb_true_iff in H as [H1 H2]. constructor; [now apply go|now apply gl].
    - inversion H; subst. apply andb_true_iff. split; [now apply go|now apply gl]. }
  destruct k; destruct d; cbn [val_eq]; split; intro H; try discriminate; try (inversion H; fail); try constructor; try reflexivity.
  - apply Bool.eqb_prop in H. subst. constructor.
  - inversion H; subst. apply Bool.eqb_reflx.
  - apply Z.eqb_eq in H. subst. constructor.
  - inversion H; subst. apply Z.eqb_refl.
  - apply Z.eqb_eq in H. subst. constructor.
  - inversion H; subst. apply Z.eqb_refl.
  - apply beq_true_iff in H. subst. constructor.
  - inversion H; subst. now apply beq_true_iff.
  - apply beq_true_iff in H. subst. constructor.
  - inversion H; subst. now apply beq_true_iff.
  - now apply L.
  - inversion H; subst. now apply L.
  - now apply L.
  - inversion H; subst. now apply L.
Qed.
Print Assumptions c57_case_key_data.

Example c57_ex_data : go "(case '(1 (a . b)) (((1)) 'no) (((1 (a b))) 'yes) (else 'none))" = Some (sym "yes", []). Proof. vm_compute. reflexivity. Qed.
Example c57_ex_shorter : go "(case '(1) (((1 2)) 'no) ((()) 'no) (else 'none))" = Some (sym "none", []). Proof. vm_compute. reflexivity. Qed.

(** * C121. for-each with a primitive: the rows are handed to it in order.  A
    primitive of fixed arity takes as many lists as it has parameters. *)
Lemma runs_for_each_prim prim e pf lists st nm ar st1 vals st2 l ls o : plain e "for-each" st ->
  runs prim e pf st (Ret (VFunc nm ar) st1) -> (ar < 0 \/ ar = Z.of_nat (length lists))%Z -> (length lists <= 10)%nat ->
  args_run prim e lists st1 (Ret vals st2) -> Forall2 (fun v l => elements v = Some l) vals (l :: ls) ->
  (runs prim e (form_ "for-each" (pf :: lists)) st o <-> lim (fun n => each_rows (eval prim n) e (VFunc nm ar) l ls) st2 o).
Proof.
  intros P Hf Le L10 Hl F. rewrite (runs_special prim e "for-each" FForEach _ st o P eq_refl). cbn [special].
  destruct Hf as (n1 & Hf & _). apply (lim_args prim e lists st1 _) in Hl. destruct Hl as (n2 & Hl & _).
  assert (MF : monotone (fun n => do_for_each (eval prim n) e (pf :: lists))) by (intros m m' L; apply m_for_each; now apply hev).
  assert (E : forall n, (Nat.max n1 n2 <= n)%nat -> do_for_each (eval prim n) e (pf :: lists) st = each_rows (eval prim n) e (VFunc nm ar) l ls st2).
  { intros n L. cbn [do_for_each]. unfold ebind at 1.
    pose proof (mono_eval prim e pf n1 n ltac:(lia) st) as [G|G]; [congruence|]. rewrite <- G, Hf.
    pose proof (mono_args prim e lists n2 n ltac:(lia) st1) as [G2|G2]; [congruence|]. rewrite Hl in G2.
    cbv beta iota.
    replace (if (ar <? 0)%Z then length lists else Z.to_nat ar) with (length lists).
    2:{ destruct (Z.ltb_spec ar 0); [reflexivity|]. destruct Le as [Le|Le]; [lia|]. rewrite Le. now rewrite Nat2Z.id. }
    replace (10 <? Z.of_nat (length lists))%Z with false by (symmetry; apply Z.ltb_ge; lia).
    unfold ebind. rewrite (nlists_eval _ e lists vals (l :: ls) st1 st2 (eq_sym G2) F). reflexivity. }
  assert (ME := mono_each prim e (VFunc nm ar) l ls).
  split; intros (n & R & N).
  - exists (Nat.max n (Nat.max n1 n2)). split; [|auto]. rewrite <- E by lia. destruct (MF n (Nat.max n (Nat.max n1 n2)) ltac:(lia) st) as [G|G]; congruence.
  - exists (Nat.max n (Nat.max n1 n2)). split; [|auto]. rewrite E by lia. destruct (ME n (Nat.max n (Nat.max n1 n2)) ltac:(lia) st2) as [G|G]; congruence.
Qed.
Lemma ecall_prim prim e nm ar r st o : calls_back nm = false -> (-2 <= ar <= 3)%Z -> plain e "quote" st ->
  (ecall prim e (VFunc nm ar) r st o <-> prim_run prim nm ar r st o).
Proof.
  intros C A P. unfold ecall.
  assert (C' : beq nm (bs "apply") = false /\ beq nm (bs "map") || beq nm (bs "map-in-order") = false /\ is_callcc nm = false).
  { unfold calls_back in C. cbn [map existsb] in C. unfold is_callcc.
    repeat (apply orb_false_iff in C; destruct C as [? C]). repeat split; try assumption; apply orb_false_iff; split; assumption. }
  destruct C' as (E1 & E2 & E3). rewrite (runs_func prim e nm ar (map quoted r) false E1 E2 E3 st o).
  rewrite (after_args prim e (map quoted r) _ st r st o).
  - now apply lim_prim.
  - apply (args_denote prim e (map quoted r) r st); auto; [apply quoted_denote|reflexivity].
Qed.
Lemma eprim_incl prim e nm ar : calls_back nm = false -> (-2 <= ar <= 3)%Z -> forall rs st o, plain e "quote" st ->
  calls_run (prim_run prim nm ar) rs st o -> calls_run (ecall prim e (VFunc nm ar)) rs st o.
Proof.
  intros C A. induction rs as [|r rs IH]; intros st o P H; cbn [calls_run] in *; [exact H|].
  destruct H as [(v & s & H1 & H2)|(o1 & H1 & H2)].
  - left. exists v, s. split; [now apply ecall_prim|].
    assert (P2 : plain e "quote" s).
    { unfold prim_run in H1. destruct (_ || _)%bool.
      - destruct (prim nm r) as [w out|]; [|unfold raises, err, throw in H1; destruct (find_handler _ _ _); discriminate].
        apply (proj1 (andthen_effect _ _ _ _)) in H1. injection H1 as _ ->. now apply plain_emit.
      - unfold throw in H1. destruct (find_handler _ _ _); discriminate. }
    destruct H2 as [(vs & s2 & H2 & H3)|(o1 & H2 & H3)]; [left; exists vs, s2|right; exists o1]; split; auto.
  - right. exists o1. split; [now apply ecall_prim|auto].
Qed.
Theorem c121_for_each_primitive : forall prim e pf lists st f ar st1 vals st2 ls m o, plain e "for-each" st -> plain e "quote" st2 ->
  lists <> [] -> (length lists <= 10)%nat -> calls_back f = false -> (-2 <= ar <= 3)%Z -> (ar < 0 \/ ar = Z.of_nat (length lists))%Z ->
  runs prim e pf st (Ret (VFunc f ar) st1) -> args_run prim e lists st1 (Ret vals st2) ->
  Forall2 (fun v l => v = mklist l) vals ls -> Forall (fun l => length l = m) ls -> Forall (Forall (fun x => x <> VNil)) ls ->
  (_ <~ calls_run (prim_run prim f ar) (rows_of ls) ;; returns VNone) st2 o ->
  runs prim e (form_ "for-each" (pf :: lists)) st o.
Proof.
  intros prim e pf lists st f ar st1 vals st2 ls m o P PQ NE L10 C A Ar Hf Hl F Lm NN H.
  assert (F' : Forall2 (fun v l => elements v = Some l) vals ls).
  { clear -F. induction F as [|v l vals ls E F IH]; constructor; auto. subst. destruct l; reflexivity. }
  destruct ls as [|l ls].
  { inversion F; subst. apply args_length in Hl. destruct lists; [congruence|discriminate]. }
  apply (proj2 (runs_for_each_prim prim e pf lists st f ar st1 vals st2 l ls o P Hf Ar L10 Hl F')).
  inversion Lm as [|? ? Lm1 Lm2]; subst.
  apply (proj2 (each_spec prim e (VFunc f ar) _ l ls eq_refl Lm2 NN st2 o)).
  destruct H as [(vs & s & H1 & H2)|(o1 & H1 & H2)]; [left; exists vs, s|right; exists o1]; split; auto; now apply eprim_incl.
Qed.
Print Assumptions c121_for_each_primitive.
Example c121_ex_primitive : go "(for-each display '(1 2 3))" = Some (VNone, bs "123"). Proof. vm_compute. reflexivity. Qed.

(** * C194. call/cc under another name.  R5RS: call/cc is a procedure, so binding
    it to a name and calling that name is calling it.  Here the operand of a call/cc
    that was not written as such is not evaluated: unless the operand already is a
    procedure object, which no program text is, the call is an error. *)
Definition procedure_value (v : val) : Prop := match v with VProc _ _ _ _ | VFunc _ _ => True | _ => False end.
Theorem c194_callcc_alias_refuted : forall prim e cc nm ar x d st o, nm = bs "call/cc" \/ nm = bs "call-with-current-continuation" ->
  form_of cc = None -> head_value st e cc = Some (VFunc nm ar) \/ (head_value st e cc = None /\ env_search st e cc = Some (VFunc nm ar)) ->
  ~ procedure_value x ->
  (runs prim e (VList [VSym cc; x] d) st o <-> o = err st).
Proof.
  intros prim e cc nm ar x d st o N F H NP.
  rewrite (runs_operator prim e cc [x] d (VFunc nm ar) st o H eq_refl F).
  rewrite runs_step.
  assert (E : forall n, step prim (eval prim n) n e (VList [VFunc nm ar; x] d) st = err st).
  { intro n. destruct N as [-> | ->]; cbn [step]; 
    (replace (is_callcc _) with true by reflexivity); cbv [beq bs]; cbn; unfold do_callcc_func; destruct x; cbn in NP |- *; try reflexivity; exfalso; auto. }
  unfold lim. split; [intros (n & <- & _); auto|intros ->; exists O; split; [apply E|apply throw_not_fuel]].
Qed.
Print Assumptions c194_callcc_alias_refuted.
(* a program does not contain procedure objects: what is read is a datum *)
Example c194_ex_direct : go "(call/cc (lambda (k) (k 5)))" = Some (VInt 5, []). Proof. vm_compute. reflexivity. Qed.
Example c194_ex_alias : go "(define cc call/cc) (cc (lambda (k) (k 5)))" = None. Proof. vm_compute. reflexivity. Qed.
Example c194_ex_param : go "(define (twice f) (f (lambda (k) (k 5)))) (twice call/cc)" = None. Proof. vm_compute. reflexivity. Qed.
Example c194_ex_receiver : go "(define g (lambda (k) (k 5))) (define cc call/cc) (cc g)" = None. Proof. vm_compute. reflexivity. Qed.
