(** C functions as Scheme procedures: C182, C183. *)
From Coq Require Import String Lia.
From Verif Require Import Base ParseModel PrintModel EnvProofs RegModel RegSpec.
Local Open Scope string_scope.
Local Open Scope list_scope.
Local Open Scope Z_scope.

(** * C182. The builtins *)
(* a function object whose pointer has the type its n_args asks for *)
Definition sound (f : sfun) : bool :=
  match f_generic f with
  | Some _ => (f_nargs f =? -1) && match p_sig (f_ptr f) with Params 2 => true | _ => false end
  | None => ((f_nargs f =? -2) && match p_sig (f_ptr f) with ListParam => true | _ => false end) ||
            ((0 <=? f_nargs f) && (f_nargs f <=? 3) && match p_sig (f_ptr f) with Params n => Z.of_nat n =? f_nargs f | _ => false end)
  end.
Lemma builtins_sound : forallb (fun f => beq (f_name f) (bs "current-module") || sound f) builtins = true.
Proof. vm_compute. reflexivity. Qed.
Lemma sound_of f : In f builtins -> f_name f <> bs "current-module" -> sound f = true.
Proof.
  intros I N. pose proof (proj1 (forallb_forall _ _) builtins_sound f I) as H. cbv beta in H. apply orb_prop in H. destruct H as [H|H]; [|exact H].
  destruct (beq_spec (f_name f) (bs "current-module")); congruence.
Qed.
(* a builtin with a fixed number of parameters is called on exactly the arguments
   given, if their number is right; otherwise it is not called and
   wrong-number-of-args is thrown *)
Theorem c182_fixed : forall A num exec f (args : list A), In f builtins -> f_name f <> bs "current-module" -> 0 <= f_nargs f ->
  eval_with_func A num exec f args =
    if Z.of_nat (length args) =? f_nargs f then result exec (p_name (f_ptr f)) (Vals args) else WrongArgs.
Proof.
  intros A num exec f args I N P. pose proof (sound_of f I N) as S. unfold sound in S.
  destruct (f_generic f); [destruct (Z.eqb_spec (f_nargs f) (-1)); [lia|discriminate S]|].
  destruct (Z.eqb_spec (f_nargs f) (-2)); [lia|]. cbn [andb orb] in S.
  apply andb_prop in S. destruct S as [S1 S2]. apply andb_prop in S1. destruct S1 as [_ S1]. apply Z.leb_le in S1.
  destruct (p_sig (f_ptr f)) as [m|] eqn:E; [|discriminate S2]. apply Z.eqb_eq in S2.
  assert (K : m = 0%nat \/ m = 1%nat \/ m = 2%nat \/ m = 3%nat) by lia.
  unfold eval_with_func, result. rewrite <- S2.
  destruct K as [-> |[-> |[-> | ->]]]; cbn [Z.of_nat Z.eqb Z.compare Pos.of_succ_nat Pos.succ Pos.eqb];
    destruct args as [|a [|b [|c [|d args]]]]; cbn [length Z.of_nat Pos.of_succ_nat]; try reflexivity; unfold call_ptr; try (rewrite E; reflexivity);
    match goal with |- _ = if ?k then _ else _ => destruct k eqn:EK; [apply Z.eqb_eq in EK; exfalso; cbn [length] in EK; lia|reflexivity] end.
Qed.
Print Assumptions c182_fixed.
(* + and * are left folds from 0 and 1 *)
Theorem c182_fold : forall A num exec f z (args : list A), In f builtins -> f_generic f = Some z ->
  folds exec (p_name (f_ptr f)) (num z) args (eval_with_func A num exec f args).
Proof.
  intros A num exec f z args I G.
  assert (N : f_name f <> bs "current-module").
  { intro K. pose proof (proj1 (forallb_forall _ _) (eq_refl : forallb (fun f => negb (beq (f_name f) (bs "current-module")) || match f_generic f with None => true | _ => false end) builtins = true) f I) as H.
    cbv beta in H. rewrite K, G in H. discriminate H. }
  pose proof (sound_of f I N) as S. unfold sound in S. rewrite G in S. apply andb_prop in S. destruct S as [S1 S2]. apply Z.eqb_eq in S1.
  unfold eval_with_func. rewrite S1, G. change (-1 =? 0) with false. change (-1 =? 1) with false. change (-1 =? 2) with false. change (-1 =? 3) with false.
  change (-1 =? -1) with true. cbv iota.
  generalize (num z). clear I G. induction args as [|x r IH]; intro a; cbn [reduce]; [constructor|].
  unfold call_ptr at 1. destruct (p_sig (f_ptr f)) as [[|[|[|n]]]|] eqn:E; try discriminate S2. cbn [length Nat.eqb].
  destruct (exec (p_name (f_ptr f)) (Vals [a; x])) as [b|] eqn:X; [|now apply folds_stop]. eapply folds_cons; [exact X|apply IH].
Qed.
Print Assumptions c182_fold.
(* the others take any number of arguments; apply, map and map-in-order are not
   called this way *)
Theorem c182_any : forall A num exec f (args : list A), In f builtins -> f_nargs f = -2 ->
  eval_with_func A num exec f args =
    if beq (f_name f) (bs "apply") || beq (f_name f) (bs "map") || beq (f_name f) (bs "map-in-order") then Failed
    else result exec (p_name (f_ptr f)) (Lst args).
Proof.
  intros A num exec f args I V.
  assert (N : f_name f <> bs "current-module").
  { intro K. pose proof (proj1 (forallb_forall _ _) (eq_refl : forallb (fun f => negb (beq (f_name f) (bs "current-module")) || negb (f_nargs f =? -2)) builtins = true) f I) as H.
    cbv beta in H. rewrite K, V in H. discriminate H. }
  pose proof (sound_of f I N) as S. unfold sound in S. rewrite V in S.
  destruct (f_generic f); [discriminate S|]. change (-2 =? -2) with true in S. change (0 <=? -2) with false in S. cbn [andb orb] in S. rewrite orb_false_r in S.
  unfold eval_with_func. rewrite V. change (-2 =? 0) with false. change (-2 =? 1) with false. change (-2 =? 2) with false. change (-2 =? 3) with false.
  change (-2 =? -1) with false. change (-2 =? -2) with true. cbv iota.
  destruct (beq (f_name f) (bs "apply")); [reflexivity|]. destruct (beq (f_name f) (bs "map")); [reflexivity|]. destruct (beq (f_name f) (bs "map-in-order")); [reflexivity|].
  cbn [orb]. unfold call_ptr, result. destruct (p_sig (f_ptr f)); [discriminate S|reflexivity].
Qed.
Print Assumptions c182_any.
(* there are no other builtins *)
Theorem c182_kinds : forall f, In f builtins -> (0 <= f_nargs f <= 3 /\ f_generic f = None) \/ (exists z, f_generic f = Some z) \/ (f_nargs f = -2 /\ f_generic f = None).
Proof.
  intros f I. destruct (beq_spec (f_name f) (bs "current-module")) as [K|K].
  - pose proof (proj1 (forallb_forall _ _) (eq_refl : forallb (fun f => negb (beq (f_name f) (bs "current-module")) || ((0 <=? f_nargs f) && (f_nargs f <=? 3) && match f_generic f with None => true | _ => false end)) builtins = true) f I) as H.
    cbv beta in H. rewrite K in H. replace (negb (beq (bs "current-module") (bs "current-module"))) with false in H by reflexivity. cbn [orb] in H.
    apply andb_prop in H. destruct H as [H H2]. apply andb_prop in H. destruct H as [H H1]. apply Z.leb_le in H, H1. left. split; [lia|]. destruct (f_generic f); [discriminate H2|reflexivity].
  - pose proof (sound_of f I K) as S. unfold sound in S. destruct (f_generic f) as [z|]; [right; left; eauto|].
    apply orb_prop in S. destruct S as [S|S]; apply andb_prop in S; destruct S as [S S2].
    + apply Z.eqb_eq in S. right. right. auto.
    + apply andb_prop in S. destruct S as [S S1]. apply Z.leb_le in S, S1. left. split; [lia|reflexivity].
Qed.
Print Assumptions c182_kinds.
(* no name is given twice, so every name means, at the start, the function
   registered under it, and no other name is bound *)
Lemma find_replace x y v : forall l, match replace y v l with
  | Some l' => find x l' = if beq y x then Some v else find x l
  | None => ~ In y (map fst l)
  end.
Proof.
  induction l as [|[k w] l IH]; cbn [replace]; [auto|].
  destruct (beq_spec k y) as [->|N].
  - cbn [find]. destruct (beq_spec y x); reflexivity.
  - destruct (replace y v l) as [l'|].
    + cbn [find]. rewrite IH. destruct (beq_spec k x) as [->|]; [|reflexivity]. destruct (beq_spec y x); congruence.
    + cbn. intros [E|E]; [congruence|auto].
Qed.
Lemma find_insert x fr f : find x (insert fr f) = if beq (f_name f) x then Some f else find x fr.
Proof.
  unfold insert. pose proof (find_replace x (f_name f) f fr) as H. destruct (replace (f_name f) f fr); [exact H|reflexivity].
Qed.
Lemma find_fold x : forall l fr, ~ In x (map f_name l) -> find x (fold_left insert l fr) = find x fr.
Proof.
  induction l as [|f l IH]; intros fr N; [reflexivity|]. cbn [fold_left]. rewrite IH; [|intro K; apply N; now right].
  rewrite find_insert. destruct (beq_spec (f_name f) x); [|reflexivity]. exfalso. apply N. now left.
Qed.
Lemma find_in : forall l fr f, NoDup (map f_name l) -> In f l -> find (f_name f) (fold_left insert l fr) = Some f.
Proof.
  induction l as [|g l IH]; intros fr f N I; [destruct I|]. inversion N as [|? ? N1 N2]. subst. cbn [fold_left]. destruct I as [->|I].
  - rewrite find_fold by auto. rewrite find_insert. destruct (beq_spec (f_name f) (f_name f)); congruence.
  - now apply IH.
Qed.
Fixpoint distinct (l : list (list Z)) : bool := match l with [] => true | x :: r => negb (existsb (beq x) r) && distinct r end.
Lemma distinct_nodup : forall l, distinct l = true -> NoDup l.
Proof.
  induction l as [|x l IH]; intro H; constructor; cbn in H; apply andb_prop in H; destruct H as [H1 H2]; [|auto].
  intro I. rewrite negb_true_iff in H1. assert (existsb (beq x) l = true); [|congruence]. apply existsb_exists. exists x. split; [auto|].
  destruct (beq_spec x x); congruence.
Qed.
Theorem c182_bound : forall f, In f builtins -> find (f_name f) initial_frame = Some f.
Proof. intros f I. apply find_in; [|exact I]. apply distinct_nodup. vm_compute. reflexivity. Qed.
Print Assumptions c182_bound.
Theorem c182_unbound : forall x, (forall f, In f builtins -> f_name f <> x) -> find x initial_frame = None.
Proof. intros x N. unfold initial_frame. rewrite find_fold; [reflexivity|]. intro I. apply in_map_iff in I. destruct I as (f & E & I). now apply (N f I). Qed.
Print Assumptions c182_unbound.
(* a function that C++ code registers with up to three required arguments is
   called in the same way *)
Theorem c182_gsubr : forall A num exec name req c (args : list A), 0 <= req <= 3 ->
  eval_with_func A num exec (define_gsubr name req 0 0 (mkP c (Params (gsubr_params req 0 0)))) args =
    if Z.of_nat (length args) =? req then result exec c (Vals args) else WrongArgs.
Proof.
  intros A num exec name req c args R. unfold define_gsubr, gsubr_params, eval_with_func. cbn [Z.eqb negb Z.ltb Z.compare f_nargs f_generic f_ptr].
  assert (K : req = 0 \/ req = 1 \/ req = 2 \/ req = 3) by lia.
  destruct K as [-> |[-> |[-> | ->]]]; cbn [Z.eqb Pos.eqb]; destruct args as [|a [|b [|d [|g args]]]]; cbn [length]; try reflexivity;
    match goal with |- _ = if ?k then _ else _ => destruct k eqn:EK; [apply Z.eqb_eq in EK; exfalso; cbn [length] in EK; lia|reflexivity] end.
Qed.
Print Assumptions c182_gsubr.
Example c182_ex : let exec := fun (c : list Z) (a : cargs Z) => match a with Vals [x; y] => Some (x + y) | Vals _ => Some 0 | Lst l => Some (Z.of_nat (length l)) end in
  let call s args := match find (bs s) initial_frame with Some f => eval_with_func Z (fun z => z) exec f args | None => BadCall end in
  (call "+" [1; 2; 3], call "cons" [4; 5], call "cons" [4], call "list" [7; 8; 9], call "map" [1; 2]) =
  (Value 6, Value 9, WrongArgs, Value 3, Failed).
Proof. vm_compute. reflexivity. Qed.

(** * C183. Every function is called as its C declaration asks: refuted *)
(* current-module is registered as taking nothing and declared with a parameter *)
Theorem c183_current_module_refuted : exists f, In f builtins /\ f_name f = bs "current-module" /\
  forall A num exec, eval_with_func A num exec f [] = BadCall.
Proof.
  exists (define_function "current-module" 0 0 0 (mkP (bs "scm_c_current_module") (Params 1))). split; [|split].
  - apply (nth_error_In builtins 183). vm_compute. reflexivity.
  - reflexivity.
  - intros A num exec. reflexivity.
Qed.
Print Assumptions c183_current_module_refuted.
(* a function that C++ code registers with optional or rest arguments is never
   called as Guile's interface says, whatever the arguments *)
Theorem c183_optional_refuted : forall A num exec name req opt rst c (args : list A), (0 < opt \/ rst <> 0) ->
  name <> bs "apply" -> name <> bs "map" -> name <> bs "map-in-order" ->
  eval_with_func A num exec (define_gsubr name req opt rst (mkP c (Params (gsubr_params req opt rst)))) args = BadCall.
Proof.
  intros A num exec name req opt rst c args O N1 N2 N3.
  assert (D : define_gsubr name req opt rst (mkP c (Params (gsubr_params req opt rst))) = mkF name (-2) None (mkP c (Params (gsubr_params req opt rst)))).
  { unfold define_gsubr. destruct (Z.eqb_spec rst 0); [|reflexivity]. destruct (Z.ltb_spec 0 opt); [reflexivity|]. lia. }
  rewrite D. unfold eval_with_func. cbn [f_nargs f_generic f_ptr f_name Z.eqb Pos.eqb].
  destruct (beq_spec name (bs "apply")); [congruence|]. destruct (beq_spec name (bs "map")); [congruence|]. destruct (beq_spec name (bs "map-in-order")); [congruence|]. reflexivity.
Qed.
Print Assumptions c183_optional_refuted.
(* one with more than three required arguments cannot be called at all *)
Theorem c183_four_refuted : forall A num exec name req p (args : list A), 3 < req ->
  eval_with_func A num exec (define_gsubr name req 0 0 p) args = Failed.
Proof.
  intros A num exec name req p args R. unfold define_gsubr, eval_with_func. cbn [Z.eqb negb Z.ltb Z.compare f_nargs f_generic].
  destruct (Z.eqb_spec req 0); [lia|]. destruct (Z.eqb_spec req 1); [lia|]. destruct (Z.eqb_spec req 2); [lia|]. destruct (Z.eqb_spec req 3); [lia|].
  destruct (Z.eqb_spec req (-1)); [lia|]. destruct (Z.eqb_spec req (-2)); [lia|]. reflexivity.
Qed.
Print Assumptions c183_four_refuted.
