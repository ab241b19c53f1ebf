(** C195, C196: the builtins and the procedures of R5RS *)
From Coq Require Import String Lia.
From Verif Require Import Base ParseModel PrintModel RegModel EnvProofs RegSpec RegSpec2 RegProperties.
Local Open Scope string_scope.
Local Open Scope list_scope.
Local Open Scope Z_scope.
Local Notation find := RegModel.find.

Lemma find_builtin x f : find x initial_frame = Some f -> In f builtins /\ f_name f = x.
Proof.
  intro H. destruct (existsb (fun g => beq (f_name g) x) builtins) eqn:E.
  - apply existsb_exists in E as (g & I & B). destruct (beq_spec (f_name g) x) as [<-|]; [|discriminate].
    rewrite (c182_bound g I) in H. injection H as <-. auto.
  - rewrite c182_unbound in H; [discriminate|]. intros g I K.
    assert (existsb (fun g => beq (f_name g) x) builtins = true); [|congruence]. apply existsb_exists. exists g. split; [auto|]. destruct (beq_spec (f_name g) x); congruence.
Qed.
(** * C195.  A procedure of R5RS that is bound, other than eval: a call with a
    number of arguments that R5RS allows reaches the C function (apply and map are
    evaluated elsewhere), *)
Definition fits (e : string * nat * option nat) : bool :=
  let '(s, lo, hi) := e in
  match find (bs s) initial_frame with
  | None => true
  | Some f => existsb (fun x => beq (bs s) (bs x)) ["eval"; "apply"; "map"] || (f_nargs f <? 0) || match hi with Some h => Nat.eqb lo h && (f_nargs f =? Z.of_nat lo) | None => false end
  end.
Lemma all_fit : forallb fits r5rs = true. Proof. vm_compute. reflexivity. Qed.
Lemma no_current_module : forallb (fun e => negb (beq (bs (fst (fst e))) (bs "current-module"))) r5rs = true. Proof. vm_compute. reflexivity. Qed.
Lemma not_module s lo hi f : In (s, lo, hi) r5rs -> find (bs s) initial_frame = Some f -> f_name f <> bs "current-module".
Proof.
  intros I F K. destruct (find_builtin _ _ F) as (_ & N). pose proof (proj1 (forallb_forall _ _) no_current_module _ I) as C. cbn [fst] in C.
  rewrite <- N, K in C. discriminate C.
Qed.
Theorem c195_allowed : forall A num exec s lo hi f (args : list A), In (s, lo, hi) r5rs -> find (bs s) initial_frame = Some f ->
  ~ In (bs s) [bs "eval"; bs "apply"; bs "map"] -> allows lo hi (length args) ->
  match eval_with_func A num exec f args with Value _ | Escaped => True | _ => False end.
Proof.
  intros A num exec s lo hi f args I F NX AL. pose proof (not_module s lo hi f I F) as NM. destruct (find_builtin _ _ F) as (B & N).
  pose proof (proj1 (forallb_forall _ _) all_fit _ I) as T. unfold fits in T. rewrite F in T.
  assert (X : existsb (fun x => beq (bs s) (bs x)) ["eval"; "apply"; "map"] = false).
  { apply not_true_is_false. intro E. apply existsb_exists in E as (x & Ix & E). apply NX. destruct (beq_spec (bs s) (bs x)) as [->|]; [|discriminate].
    destruct Ix as [<-|[<-|[<-|[]]]]; cbn [In]; auto. }
  rewrite X in T. cbn [orb] in T.
  destruct (c182_kinds f B) as [[R G]|[[z G]|[R G]]].
  - destruct (Z.ltb_spec (f_nargs f) 0); [lia|]. cbn [orb] in T. destruct hi as [h|]; [|discriminate]. apply andb_prop in T as [T1 T2].
    apply Nat.eqb_eq in T1. apply Z.eqb_eq in T2. subst h. destruct AL as [A1 A2].
    rewrite (c182_fixed A num exec f args B NM ltac:(lia)). replace (Z.of_nat (length args) =? f_nargs f) with true by (symmetry; apply Z.eqb_eq; lia).
    unfold result. destruct (exec _ _); exact Logic.I.
  - pose proof (c182_fold A num exec f z args B G) as H. clear -H. induction H; auto.
  - rewrite (c182_any A num exec f args B R).
    assert (NP : ~ In (f_name f) [bs "apply"; bs "map"; bs "map-in-order"]).
    { rewrite N. intros [E|[E|[E|[]]]]; try (apply NX; rewrite <- E; cbn [In]; auto; fail).
      clear -I E. pose proof (proj1 (forallb_forall _ _) (eq_refl : forallb (fun e => negb (beq (bs (fst (fst e))) (bs "map-in-order"))) r5rs = true) _ I) as C.
      cbn [fst] in C. rewrite <- E in C. discriminate C. }
    assert (NB : forall y, In y [bs "apply"; bs "map"; bs "map-in-order"] -> beq (f_name f) y = false).
    { intros y Iy. destruct (beq_spec (f_name f) y) as [K|]; [|reflexivity]. exfalso. apply NP. now rewrite K. }
    rewrite !NB by (cbn [In]; auto). cbn [orb]. unfold result. destruct (exec _ _); exact Logic.I.
Qed.
Print Assumptions c195_allowed.
(* and, where R5RS fixes the number, a call with another number throws
   wrong-number-of-args; the named ones check it themselves or not at all *)
Theorem c195_not_allowed : forall A num exec s n f (args : list A), In (s, n, Some n) r5rs -> find (bs s) initial_frame = Some f ->
  ~ In (bs s) (map bs ["eval"; "call-with-current-continuation"; "call-with-input-file"; "call-with-output-file"]) ->
  length args <> n -> eval_with_func A num exec f args = WrongArgs.
Proof.
  intros A num exec s n f args I F NX L. pose proof (not_module s n (Some n) f I F) as NM. destruct (find_builtin _ _ F) as (B & N).
  pose proof (proj1 (forallb_forall (fun e : string * nat * option nat => let '(s, lo, hi) := e in
    match find (bs s) initial_frame, hi with
    | Some f, Some h => negb (Nat.eqb lo h) || existsb (fun x => beq (bs s) x) (map bs ["eval"; "call-with-current-continuation"; "call-with-input-file"; "call-with-output-file"]) || (f_nargs f =? Z.of_nat lo)
    | _, _ => true
    end) r5rs) ltac:(vm_compute; reflexivity) _ I) as T. cbv beta iota in T. rewrite F, Nat.eqb_refl in T. cbn [negb orb] in T.
  apply orb_prop in T as [T|T].
  - exfalso. apply NX. apply existsb_exists in T as (y & Iy & E). destruct (beq_spec (bs s) y) as [->|]; [exact Iy|discriminate].
  - apply Z.eqb_eq in T. rewrite (c182_fixed A num exec f args B NM ltac:(lia)).
    replace (Z.of_nat (length args) =? f_nargs f) with false; [reflexivity|]. symmetry. apply Z.eqb_neq. lia.
Qed.
Print Assumptions c195_not_allowed.
(* how many of the procedures of R5RS the two theorems are about *)
Example c195_ex : (length r5rs, length (filter (fun e => match find (bs (fst (fst e))) initial_frame with Some _ => true | None => false end) r5rs)) = (200%nat, 139%nat).
Proof. vm_compute. reflexivity. Qed.
Example c195_ex_hyp : match find (bs "list-ref") initial_frame with Some f => f_nargs f = 2 | None => False end. Proof. vm_compute. reflexivity. Qed.

(** * C196.  Every procedure of R5RS is bound: refuted.  These are the missing ones;
    for-each, call-with-values and dynamic-wind are keywords and no values. *)
Definition missing : list string :=
  ["numerator"; "denominator"; "floor"; "ceiling"; "truncate"; "round"; "exp"; "log"; "sin"; "cos"; "tan"; "asin"; "acos"; "real-part"; "imag-part";
   "magnitude"; "angle"; "exact->inexact"; "inexact->exact"; "rationalize"; "make-rectangular"; "make-polar"; "atan"; "caar"; "cdar"; "caaar"; "caadr";
   "cadar"; "cdaar"; "cdadr"; "cddar"; "cdddr"; "caaaar"; "caaadr"; "caadar"; "caaddr"; "cadaar"; "cadadr"; "caddar"; "cadddr"; "cdaaar"; "cdaadr";
   "cdadar"; "cdaddr"; "cddaar"; "cddadr"; "cdddar"; "cddddr"; "string-copy"; "string-fill!"; "vector-fill!"; "for-each"; "call-with-values";
   "dynamic-wind"; "scheme-report-environment"; "null-environment"; "interaction-environment"; "with-input-from-file"; "with-output-to-file";
   "transcript-on"; "transcript-off"].
Theorem c196_missing_refuted : forall s lo hi, In (s, lo, hi) r5rs -> (find (bs s) initial_frame = None <-> In s missing).
Proof.
  intros s lo hi I.
  pose proof (proj1 (forallb_forall (fun e : string * nat * option nat =>
    Bool.eqb (match find (bs (fst (fst e))) initial_frame with None => true | Some _ => false end) (existsb (String.eqb (fst (fst e))) missing)) r5rs)
    ltac:(vm_compute; reflexivity) _ I) as T. cbn [fst] in T. apply Bool.eqb_prop in T.
  assert (X : existsb (String.eqb s) missing = true <-> In s missing).
  { rewrite existsb_exists. split; [intros (y & Iy & E); apply String.eqb_eq in E; now subst|intro K; exists s; split; [auto|apply String.eqb_refl]]. }
  rewrite <- X, <- T. destruct (find (bs s) initial_frame); split; intro H; try discriminate; reflexivity.
Qed.
Print Assumptions c196_missing_refuted.
(* eval is bound, but a call as R5RS asks, with an environment, throws wrong-number-of-args *)
Theorem c196_eval_refuted : forall A num exec (x env : A), exists f, find (bs "eval") initial_frame = Some f /\ eval_with_func A num exec f [x; env] = WrongArgs.
Proof. intros. exists (define_function "eval" 1 0 0 (mkP (bs "scm_c_eval") (Params 1))). split; vm_compute; reflexivity. Qed.
Print Assumptions c196_eval_refuted.
