(** C188-C190: arithmetic with inexact numbers. *)
From Coq Require Import SpecFloat Lia.
From Verif Require Import Base NumModel NumSpec NumSpec2.

Lemma inexact_ok v : a_number v -> to_double v = inexact v.
Proof. destruct v; intros []; reflexivity. Qed.
Lemma fold_float (op : spec_float -> spec_float -> spec_float) (f : nval -> nval -> res nval) :
  (forall l r, is_float l = true -> f l r = Ok (VFloat (op (to_double l) (to_double r)))) ->
  forall args acc, Forall a_number args -> foldM f (VFloat acc) args = Ok (VFloat (fold_left op (map inexact args) acc)).
Proof.
  intros F. induction args as [|v args IH]; intros acc H; [reflexivity|]. inversion H; subst. cbn [foldM map fold_left]. rewrite F by reflexivity. cbn [bind to_double]. rewrite inexact_ok by assumption. now apply IH.
Qed.
Lemma fold_app f : forall l acc r, foldM f acc (l ++ r) = bind (foldM f acc l) (fun v => foldM f v r).
Proof. induction l as [|x l IH]; intros acc r; [reflexivity|]. cbn [app foldM]. destruct (f acc x); cbn [bind]; auto. Qed.

(** ** C188 *)
(* An addition with exact integers first, whose sum is z, and then an inexact number: the sum of
   the integers is rounded once, and everything from there on is added as IEEE doubles, from left
   to right. *)
Theorem c188_plus : forall ints z f rest, scm_plus (map VInt ints) = Ok (VInt z) -> Forall a_number rest ->
  scm_plus (map VInt ints ++ VFloat f :: rest) = Ok (VFloat (fold_left ieee_add (map inexact rest) (ieee_add (nearest z) f))).
Proof.
  intros ints z f rest S R. unfold scm_plus in *. rewrite fold_app, S. cbn [bind foldM]. unfold add_number at 1. cbn [promote is_float orb to_double bind].
  apply (fold_float ieee_add); [|exact R]. intros l r L. unfold add_number, promote. rewrite L. reflexivity.
Qed.
Print Assumptions c188_plus.
Theorem c188_times : forall ints z f rest, scm_times (map VInt ints) = Ok (VInt z) -> Forall a_number rest ->
  scm_times (map VInt ints ++ VFloat f :: rest) = Ok (VFloat (fold_left ieee_mul (map inexact rest) (ieee_mul (nearest z) f))).
Proof.
  intros ints z f rest S R. unfold scm_times in *. rewrite fold_app, S. cbn [bind foldM]. unfold mul_number at 1. cbn [promote is_ratio is_float orb to_double bind].
  apply (fold_float ieee_mul); [|exact R]. intros l r L. unfold mul_number, promote. destruct l; try discriminate L. cbn [is_ratio is_float orb]. destruct (is_ratio r); reflexivity.
Qed.
Print Assumptions c188_times.
(* a subtraction from an inexact number, one of an inexact number, and the change of sign *)
Theorem c188_minus : forall f rest, Forall a_number rest ->
  (rest <> [] -> scm_minus (VFloat f :: rest) = Ok (VFloat (fold_left ieee_sub (map inexact rest) f))) /\
  (forall z, scm_minus (VInt z :: VFloat f :: rest) = Ok (VFloat (fold_left ieee_sub (map inexact rest) (ieee_sub (nearest z) f)))) /\
  scm_minus [VFloat f] = Ok (VFloat (SFopp f)).
Proof.
  intros f rest R. assert (F : forall l r, is_float l = true -> minus_number l r = Ok (VFloat (ieee_sub (to_double l) (to_double r)))) by (intros l r L; unfold minus_number, promote; rewrite L; reflexivity).
  split; [|split].
  - intro N. destruct rest as [|x rest]; [easy|]. cbn [scm_minus]. now apply (fold_float ieee_sub).
  - intro z. cbn [scm_minus foldM]. unfold minus_number at 1. cbn [promote is_float orb to_double bind]. now apply (fold_float ieee_sub).
  - reflexivity.
Qed.
Print Assumptions c188_minus.
Lemma zero_spec d : deq d dzero = true <-> is_dzero d.
Proof.
  unfold is_dzero, deq, dzero. split.
  - destruct d as [s|[]| |[] m e]; cbn; intro H; try discriminate H. eauto.
  - intros [s ->]. destruct s; reflexivity.
Qed.
(* a division of an inexact number: an error if a divisor is zero, and otherwise IEEE division from
   left to right; the inverse *)
Theorem c188_div : forall f rest, Forall a_number rest -> rest <> [] ->
  (Forall (fun v => ~ is_dzero (inexact v)) rest -> scm_div (VFloat f :: rest) = Ok (VFloat (fold_left ieee_div (map inexact rest) f))) /\
  (Exists (fun v => is_dzero (inexact v)) rest -> scm_div (VFloat f :: rest) = Err).
Proof.
  intros f rest R N. assert (E : scm_div (VFloat f :: rest) = div_float_loop f rest) by (destruct rest; [easy|reflexivity]). rewrite E. clear E N. revert f.
  induction R as [|v rest V R IH]; intro f; split; intro H.
  - reflexivity.
  - inversion H.
  - inversion H as [|? ? Z1 Z2]; subst. cbn [div_float_loop map fold_left]. assert (NUM : is_num v || is_float v || is_ratio v = true) by (destruct v; easy). rewrite NUM.
    destruct (deq (to_double v) dzero) eqn:D; [exfalso; apply Z1; rewrite <- inexact_ok by exact V; now apply zero_spec|]. rewrite (inexact_ok v V). now apply IH.
  - cbn [div_float_loop]. assert (NUM : is_num v || is_float v || is_ratio v = true) by (destruct v; easy). rewrite NUM.
    destruct (deq (to_double v) dzero) eqn:D; [reflexivity|]. inversion H as [? ? Z1|? ? Z1]; subst; [exfalso|now apply IH]. rewrite <- inexact_ok in Z1 by exact V. apply zero_spec in Z1. rewrite Z1 in D. discriminate D.
Qed.
Print Assumptions c188_div.
Theorem c188_inverse : forall f, (~ is_dzero f -> scm_div [VFloat f] = Ok (VFloat (ieee_div (nearest 1) f))) /\ (is_dzero f -> scm_div [VFloat f] = Err).
Proof.
  intro f. split; intro H; cbn [scm_div]; destruct (deq f dzero) eqn:D; try reflexivity; exfalso.
  - now apply H, zero_spec.
  - apply zero_spec in H. congruence.
Qed.
Print Assumptions c188_inverse.
Lemma rel_spec o a b : dcmp o a b = true <-> ieee_rel o a b.
Proof.
  unfold ieee_rel. destruct o; cbn [dcmp]; unfold deq, dle, dge, dlt, dgt; destruct (SFcompare a b) as [[]|]; split; intro H; try discriminate H; try reflexivity; try (now left); try (now right); try easy; destruct H; discriminate.
Qed.
(* a comparison of numbers that are not all exact integers, each neighbour of an inexact one:
   holds iff the IEEE relation holds between all neighbours *)
Theorem c188_compare : forall o args, Forall a_number args -> (length args >= 2)%nat ->
  (forall i x y, nth_error args i = Some x -> nth_error args (S i) = Some y -> a_float x \/ a_float y) ->
  exists b, scm_cmp o args = Ok (VBool b) /\ (b = true <-> ieee_chain o (map inexact args)).
Proof.
  intros o args R L AD.
  assert (CH : forall rest x, Forall a_number (x :: rest) -> (forall i u v, nth_error (x :: rest) i = Some u -> nth_error (x :: rest) (S i) = Some v -> a_float u \/ a_float v) ->
     exists b, chain_loop o x rest = Ok (VBool b) /\ (b = true <-> ieee_chain o (map inexact (x :: rest)))).
  { induction rest as [|y rest IH]; intros x F A; [exists true; split; [reflexivity|]; cbn; split; auto|].
    inversion F as [|? ? FX FR]; subst. inversion FR as [|? ? FY FR2]; subst. assert (P : promote x y = true) by (destruct (A 0%nat x y eq_refl eq_refl) as [Q|Q]; [destruct x|destruct y]; try easy; unfold promote; cbn; rewrite ?Bool.orb_true_r; reflexivity).
    cbn [chain_loop]. unfold cmp_number. rewrite P. cbn [bind]. rewrite !inexact_ok by assumption. pose proof (rel_spec o (inexact x) (inexact y)) as RS.
    change (ieee_chain o (map inexact (x :: y :: rest))) with (ieee_rel o (inexact x) (inexact y) /\ ieee_chain o (map inexact (y :: rest))).
    destruct (dcmp o (inexact x) (inexact y)).
    - destruct (IH y FR) as (b & E & S); [intros i u v Hu Hv; apply (A (S i)); assumption|]. exists b. split; [exact E|]. rewrite S. tauto.
    - exists false. split; [reflexivity|]. split; [discriminate|]. intros [Q _]. apply RS in Q. discriminate Q. }
  destruct args as [|x [|y [|z rest]]]; cbn in L; try lia.
  - destruct (CH [y] x R AD) as (b & E & S). exists b. split; [|exact S]. cbn [scm_cmp chain_loop] in *. destruct (cmp_number o x y) as [[]| | | |]; cbn [bind] in *; exact E.
  - exact (CH (y :: z :: rest) x R AD).
Qed.
Print Assumptions c188_compare.
(* 0.5 < 2 <= 2.0, and a NaN equals nothing *)
Example c188_ex : scm_cmp CLt [VFloat (S754_finite false 4503599627370496 (-53)); VInt 2] = Ok (VBool true) /\
  scm_cmp CEq [VFloat S754_nan; VFloat S754_nan] = Ok (VBool false) /\ scm_cmp CLe [VInt 2; VFloat (nearest 2); VInt 2] = Ok (VBool true) /\
  scm_plus [VInt 1; VInt 2; VFloat (nearest 4)] = Ok (VFloat (nearest 7)) /\ scm_div [VFloat (nearest 6); VInt 2] = Ok (VFloat (nearest 3)) /\ scm_div [VFloat (nearest 6); VInt 0] = Err.
Proof. vm_compute. repeat split. Qed.

(** ** C189 *)
(* Next to an inexact number, anything that is not a number counts as 0.0, and there is no error. *)
Theorem c189_not_a_number : forall f x, ~ a_number x ->
  scm_plus [VFloat f; x] = scm_plus [VFloat f; VFloat (S754_zero false)] /\ scm_times [VFloat f; x] = scm_times [VFloat f; VFloat (S754_zero false)] /\
  scm_minus [VFloat f; x] = scm_minus [VFloat f; VFloat (S754_zero false)] /\ (forall o, scm_cmp o [VFloat f; x] = scm_cmp o [VFloat f; VFloat (S754_zero false)]) /\
  (forall n, scm_div [VInt n; VFloat f; x] = scm_div [VInt n; VFloat f; VFloat (S754_zero false)]).
Proof. intros f x N. destruct x; try (exfalso; apply N; exact Logic.I); repeat split. Qed.
Print Assumptions c189_not_a_number.
(* next to an exact integer it ends the process *)
Theorem c189_exact : forall n x, in64 n = true -> ~ a_number x -> scm_plus [VInt n; x] = Abort /\ scm_times [VInt n; x] = Abort /\ scm_minus [VInt n; x] = Abort /\ (forall o, scm_cmp o [VInt n; x] = Abort).
Proof.
  intros n x I N. assert (Q : forall k, i64 k = if in64 k then Ok k else UB) by reflexivity. destruct x; try (exfalso; apply N; exact Logic.I);
  (split; [unfold scm_plus; cbn [foldM]; unfold add_number at 1; cbn [promote is_float orb int_binop]; rewrite Z.add_0_l, Q, I; reflexivity|]);
  (split; [unfold scm_times; cbn [foldM]; unfold mul_number at 1; cbn [promote is_float is_ratio orb int_binop]; rewrite Z.mul_1_l, Q, I; reflexivity|]);
  repeat split.
Qed.
Print Assumptions c189_exact.
(* an operand that is not a number is an error: false *)
Theorem c189_error_refuted : ~ (forall args x, In x args -> ~ a_number x -> scm_plus args = Err) /\ ~ (forall o args x, In x args -> ~ a_number x -> scm_cmp o args = Err) /\
  ~ (forall args x, In x args -> ~ a_number x -> scm_div args = Err).
Proof.
  split; [|split]; intro H.
  - specialize (H [VFloat (nearest 1); VOther] VOther). assert (E : scm_plus [VFloat (nearest 1); VOther] = Ok (VFloat (nearest 1))) by (vm_compute; reflexivity). rewrite E in H. discriminate H; cbn; auto.
  - specialize (H CLt [VFloat (nearest 1); VOther] VOther). assert (E : scm_cmp CLt [VFloat (nearest 1); VOther] = Ok (VBool false)) by (vm_compute; reflexivity). rewrite E in H. discriminate H; cbn; auto.
  - specialize (H [VInt 1; VFloat (nearest 2); VOther] VOther). assert (E : scm_div [VInt 1; VFloat (nearest 2); VOther] = Ok (VFloat (S754_infinity false))) by (vm_compute; reflexivity). rewrite E in H. discriminate H; cbn; auto.
Qed.
Print Assumptions c189_error_refuted.

(** ** C190 *)
(* A division of an exact number by an inexact one and more: no divisor is checked from there on,
   so the result is what IEEE division gives, also by zero. *)
Theorem c190_exact_by_inexact : forall n f rest, Forall a_number rest ->
  scm_div (VInt n :: VFloat f :: rest) = Ok (VFloat (fold_left ieee_div (f :: map inexact rest) (ieee_div (nearest n) (nearest 1)))).
Proof.
  intros n f rest R. cbn [scm_div div_exact_loop div_switch_loop]. unfold ddiv, ieee_div, nearest, d_of_Z. cbn [to_double fold_left]. do 2 f_equal.
  set (acc := SFdiv prec emax _ f). change (SFdiv 53 1024 (SFdiv 53 1024 (binary_normalize 53 1024 n 0 false) (binary_normalize 53 1024 1 0 false)) f) with acc. generalize acc. clear acc. induction R as [|v rest V R IH]; intro acc; [reflexivity|]. cbn [div_switch_loop map fold_left]. rewrite (inexact_ok v V). apply IH.
Qed.
Print Assumptions c190_exact_by_inexact.
(* a division with a zero divisor is an error: false for (/ 1 0.0) and (/ 1 2.0 0), though (/ 1.0 0.0)
   and (/ 1.0 2 0) are errors *)
Theorem c190_zero_divisor_refuted : ~ (forall x rest, a_number x -> Forall a_number rest -> Exists (fun v => is_dzero (inexact v)) rest -> scm_div (x :: rest) = Err).
Proof.
  intro H. specialize (H (VInt 1) [VFloat (S754_zero false)]). assert (E : scm_div [VInt 1; VFloat (S754_zero false)] = Ok (VFloat (S754_infinity false))) by (vm_compute; reflexivity). rewrite E in H.
  discriminate H; cbn; auto. - repeat constructor. - constructor. exists false. reflexivity.
Qed.
Print Assumptions c190_zero_divisor_refuted.
Example c190_ex : scm_div [VInt 1; VFloat (nearest 2); VInt 0] = Ok (VFloat (S754_infinity false)) /\ scm_div [VFloat (nearest 1); VInt 2; VInt 0] = Err /\ scm_div [VInt 1; VInt 2; VInt 0] = Err.
Proof. vm_compute. repeat split. Qed.

(** ** C191 *)
Theorem c191_abs : forall z, fits z -> scm_abs (VInt z) = Ok (VInt (Z.abs z)).
Proof.
  intros z [I N]. unfold scm_abs, cabs. destruct (z <? 0) eqn:L; [|cbn [bind]; rewrite Z.abs_eq by lia; reflexivity]. assert (Z.abs z = - z) by lia.
  unfold i64. assert (IN : in64 (- z) = true). { unfold in64, i64_min, i64_max in *. lia. } rewrite IN. cbn [bind]. now rewrite H.
Qed.
Print Assumptions c191_abs.
(* abs and expt give a number or an error for every number: false, an inexact number or a ratio ends the process *)
Theorem c191_inexact_aborts : forall v, (a_float v \/ is_ratio v = true) -> scm_abs v = Abort /\ (forall w, scm_expt v w = Abort /\ scm_expt w v = Abort).
Proof. intros v H. destruct v; cbn in H; try (destruct H; easy); split; try reflexivity; intro w; destruct w; split; reflexivity. Qed.
Print Assumptions c191_inexact_aborts.
Theorem c191_closed_refuted : ~ (forall v, a_number v -> scm_abs v <> Abort) /\ ~ (forall v w, a_number v -> a_number w -> scm_expt v w <> Abort).
Proof. split; intro H; [apply (H (VFloat (nearest 1)) Logic.I)|apply (H (VFloat (nearest 2)) (VInt 3) Logic.I Logic.I)]; reflexivity. Qed.
Print Assumptions c191_closed_refuted.
Example c191_ex : fits (-5) /\ scm_abs (VInt (-5)) = Ok (VInt 5).
Proof. vm_compute. repeat split. discriminate. Qed.
