(** C01-C09: statements about exact integers, ratios and their textual form.
    Every theorem is closed by [exact]; proofs are in NumProofs, NumFloat and
    StrNumProofs; the vocabulary is NumSpec. *)
From Coq Require Import SpecFloat.
From Verif Require Import Base NumModel NumSpec NumProofs NumFloat StrNumModel StrNumProofs NumWitness.

(** C01 *)
Theorem c01_plus_exact : forall args,
  (forall k, (k <= length args)%nat -> in64 (zsum (firstn k args)) = true) ->
  scm_plus (map VInt args) = Ok (VInt (zsum args)).
Proof. exact plus_exact. Qed.
Print Assumptions c01_plus_exact.
Theorem c01_plus_overflow_is_ub : forall args k,
  (k <= length args)%nat -> in64 (zsum (firstn k args)) = false ->
  scm_plus (map VInt args) = UB.
Proof. exact plus_ub. Qed.
Print Assumptions c01_plus_overflow_is_ub.
Theorem c01_times_exact : forall args,
  (forall k, (k <= length args)%nat -> in64 (zprod (firstn k args)) = true) ->
  scm_times (map VInt args) = Ok (VInt (zprod args)).
Proof. exact times_exact. Qed.
Print Assumptions c01_times_exact.
Theorem c01_times_overflow_is_ub : forall args k,
  (k <= length args)%nat -> in64 (zprod (firstn k args)) = false ->
  scm_times (map VInt args) = UB.
Proof. exact times_ub. Qed.
Print Assumptions c01_times_overflow_is_ub.
Theorem c01_minus_exact : forall a b args,
  (forall k, (k <= length args)%nat -> in64 (a - b - zsum (firstn k args)) = true) ->
  scm_minus (map VInt (a :: b :: args)) = Ok (VInt (a - b - zsum args)).
Proof. exact minus_exact. Qed.
Print Assumptions c01_minus_exact.
Theorem c01_minus_overflow_is_ub : forall a b args k,
  (k <= length args)%nat -> in64 (a - b - zsum (firstn k args)) = false ->
  scm_minus (map VInt (a :: b :: args)) = UB.
Proof. exact minus_ub. Qed.
Print Assumptions c01_minus_overflow_is_ub.
Theorem c01_minus_unary : forall a, in64 a = true ->
  scm_minus [VInt a] = if a =? i64_min then UB else Ok (VInt (- a)).
Proof. exact minus_unary_spec. Qed.
Print Assumptions c01_minus_unary.
Example c01_nonvacuous :
  scm_plus (map VInt [2 ^ 62; 2 ^ 62 - 1; -5]) = Ok (VInt (2 ^ 63 - 6)) /\
  scm_plus (map VInt [2 ^ 62; 2 ^ 62; -5]) = UB /\
  scm_minus (map VInt [10; 3; 4]) = Ok (VInt 3).
Proof. vm_compute. auto. Qed.

(** C02 *)
Theorem c02_quotient : forall x y, div_ok x y ->
  scm_quotient (VInt x) (VInt y) = Ok (VInt (Z.quot x y)).
Proof. exact quotient_ok. Qed.
Print Assumptions c02_quotient.
Theorem c02_remainder : forall x y, div_ok x y ->
  scm_remainder (VInt x) (VInt y) = Ok (VInt (Z.rem x y)).
Proof. exact remainder_ok. Qed.
Print Assumptions c02_remainder.
Theorem c02_modulo : forall x y, div_ok x y ->
  scm_modulo (VInt x) (VInt y) = Ok (VInt (x mod y)).
Proof. exact modulo_ok. Qed.
Print Assumptions c02_modulo.
Theorem c02_laws : forall x y, div_ok x y -> exists q r m,
  scm_quotient (VInt x) (VInt y) = Ok (VInt q) /\
  scm_remainder (VInt x) (VInt y) = Ok (VInt r) /\
  scm_modulo (VInt x) (VInt y) = Ok (VInt m) /\
  x = y * q + r /\ Z.abs r < Z.abs y /\ (r = 0 \/ Z.sgn r = Z.sgn x) /\
  Z.abs m < Z.abs y /\ (m = 0 \/ Z.sgn m = Z.sgn y) /\ (exists k, x = y * k + m).
Proof. exact division_laws. Qed.
Print Assumptions c02_laws.
Theorem c02_zero_divisor : forall x,
  scm_quotient (VInt x) (VInt 0) = Err /\ scm_remainder (VInt x) (VInt 0) = Err /\
  scm_modulo (VInt x) (VInt 0) = Err.
Proof. exact division_by_zero. Qed.
Print Assumptions c02_zero_divisor.
Theorem c02_min_by_minus_one_is_ub :
  scm_quotient (VInt i64_min) (VInt (-1)) = UB /\
  scm_remainder (VInt i64_min) (VInt (-1)) = UB /\ scm_modulo (VInt i64_min) (VInt (-1)) = UB.
Proof. exact quotient_min_ub. Qed.
Print Assumptions c02_min_by_minus_one_is_ub.
Example c02_nonvacuous : div_ok (-7) 2 /\ scm_modulo (VInt (-7)) (VInt 2) = Ok (VInt 1)
  /\ scm_remainder (VInt (-7)) (VInt 2) = Ok (VInt (-1)).
Proof. vm_compute. intuition discriminate. Qed.

(** C03 *)
Theorem c03_gcd : forall args, Forall fits args -> exists g,
  scm_gcd (map VInt args) = Ok (VInt g) /\ 0 <= g /\
  (forall x, In x args -> (g | x)) /\
  (forall d, (forall x, In x args -> (d | x)) -> (d | g)).
Proof. exact gcd_prim_spec. Qed.
Print Assumptions c03_gcd.
Theorem c03_lcm : forall args, Forall fits args ->
  (forall k, (k <= length args)%nat -> in64 (zlcm (firstn k args)) = true) -> exists l,
  scm_lcm (map VInt args) = Ok (VInt l) /\ 0 <= l /\
  (forall x, In x args -> (x | l)) /\
  (forall m, (forall x, In x args -> (x | m)) -> (l | m)).
Proof. exact lcm_prim_spec. Qed.
Print Assumptions c03_lcm.
Theorem c03_min_is_ub : forall rest, scm_gcd (VInt i64_min :: rest) = UB /\ scm_lcm (VInt i64_min :: rest) = UB.
Proof. exact gcd_min_ub. Qed.
Print Assumptions c03_min_is_ub.
Example c03_nonvacuous : scm_gcd (map VInt [12; -18; 30]) = Ok (VInt 6) /\
  scm_lcm (map VInt [4; -6; 10]) = Ok (VInt 60).
Proof. vm_compute. auto. Qed.

(** C04 *)
Theorem c04_div_ints : forall a b args,
  fits a -> Forall (fun x => x <> 0) (b :: args) ->
  (forall k, (k <= length (b :: args))%nat -> fits (zprod (firstn k (b :: args)))) ->
  exists v, scm_div (map VInt (a :: b :: args)) = Ok v /\
    denotes v a (zprod (b :: args)) /\ normal v.
Proof. exact scm_div_ints. Qed.
Print Assumptions c04_div_ints.
Theorem c04_div_exact : forall a b n1 d1 n2 d2,
  exact_num a = Some (n1, d1) -> exact_num b = Some (n2, d2) ->
  n2 <> 0 -> fits (n1 * d2) -> fits (d1 * n2) -> d1 <> 0 ->
  exists v, scm_div [a; b] = Ok v /\ denotes v (n1 * d2) (d1 * n2) /\ normal v.
Proof. exact div2_exact. Qed.
Print Assumptions c04_div_exact.
Theorem c04_mul_exact : forall a b n1 d1 n2 d2,
  exact_num a = Some (n1, d1) -> exact_num b = Some (n2, d2) -> d1 <> 0 -> d2 <> 0 ->
  fits (n1 * n2) -> fits (d1 * d2) -> d1 <> 0 ->
  exists v, mul_number a b = Ok v /\ denotes v (n1 * n2) (d1 * d2) /\ normal v.
Proof. exact mul2_exact. Qed.
Print Assumptions c04_mul_exact.
Theorem c04_normal_form_unique : forall v w p q, q <> 0 ->
  normal v -> normal w -> denotes v p q -> denotes w p q -> v = w.
Proof. exact normal_unique. Qed.
Print Assumptions c04_normal_form_unique.
Theorem c04_zero_divisor : forall a b n1 d1 d2,
  exact_num a = Some (n1, d1) -> exact_num b = Some (0, d2) -> scm_div [a; b] = Err.
Proof. exact div_by_exact_zero. Qed.
Print Assumptions c04_zero_divisor.
(* no arguments: the neutral elements; - needs an argument *)
Theorem c04_no_arguments : scm_plus [] = Ok (VInt 0) /\ scm_times [] = Ok (VInt 1) /\ scm_div [] = Ok (VInt 1).
Proof. repeat split. Qed.
Print Assumptions c04_no_arguments.
Example c04_nonvacuous : scm_div [VInt 6; VInt (-4)] = Ok (VRatio (-3) 2) /\
  scm_div [VRatio 3 2; VRatio (-3) 4] = Ok (VInt (-2)).
Proof. vm_compute. auto. Qed.

(** C05 *)
Theorem c05_pairwise : forall o x y, scm_cmp o [VInt x; VInt y] = Ok (VBool (zcmp o x y)).
Proof. exact cmp2_spec. Qed.
Print Assumptions c05_pairwise.
Theorem c05_relation : forall o x y, zcmp o x y = true <-> zrel o x y.
Proof. exact zcmp_spec. Qed.
Print Assumptions c05_relation.
Theorem c05_chain : forall o args,
  exists b, scm_cmp o (map VInt args) = Ok (VBool b) /\ (b = true <-> chain o args).
Proof. exact cmp_spec. Qed.
Print Assumptions c05_chain.
Example c05_nonvacuous : scm_cmp CLt (map VInt [1; 2; 3]) = Ok (VBool true) /\
  scm_cmp CLt (map VInt [1; 3; 2]) = Ok (VBool false).
Proof. vm_compute. auto. Qed.

(** C06 *)
Theorem c06_zero : forall z, in64 z = true -> is_zero (VInt z) = Ok (VBool (z =? 0)).
Proof. exact zero_exact. Qed.
Print Assumptions c06_zero.
Theorem c06_positive : forall z, in64 z = true -> is_positive (VInt z) = Ok (VBool (0 <? z)).
Proof. exact positive_exact. Qed.
Print Assumptions c06_positive.
Theorem c06_negative : forall z, in64 z = true -> is_negative (VInt z) = Ok (VBool (z <? 0)).
Proof. exact negative_exact. Qed.
Print Assumptions c06_negative.
(** the remaining predicates are exact below 2^53 only *)
Theorem c124_odd : forall z, small z -> is_odd (VInt z) = Ok (VBool (Z.odd z)).
Proof. exact odd_small. Qed.
Print Assumptions c124_odd.
Theorem c124_even : forall z, small z -> is_even (VInt z) = Ok (VBool (Z.even z)).
Proof. exact even_small. Qed.
Print Assumptions c124_even.
Theorem c124_max : forall x args, small x -> Forall small args -> exists m,
  scm_max (map VInt (x :: args)) = Ok (VInt m) /\
  In m (x :: args) /\ forall y, In y (x :: args) -> y <= m.
Proof. exact max_prim_spec. Qed.
Print Assumptions c124_max.
Theorem c124_min : forall x args, small x -> Forall small args -> exists m,
  scm_min (map VInt (x :: args)) = Ok (VInt m) /\
  In m (x :: args) /\ forall y, In y (x :: args) -> m <= y.
Proof. exact min_prim_spec. Qed.
Print Assumptions c124_min.
Theorem c170_odd_refuted : in64 (2 ^ 53 + 1) = true /\
  is_odd (VInt (2 ^ 53 + 1)) = Ok (VBool false) /\ is_even (VInt (2 ^ 53 + 1)) = Ok (VBool true).
Proof. exact odd_witness. Qed.
Print Assumptions c170_odd_refuted.
Theorem c170_max_refuted :
  scm_max (map VInt [2 ^ 53 + 1]) = Ok (VInt (2 ^ 53)) /\
  scm_max (map VInt [i64_max]) = UB.
Proof. exact max_witness. Qed.
Print Assumptions c170_max_refuted.

(** C07 *)
Theorem c135_ratio_refuted : exists v, scm_div [VInt 1; VInt 2] = Ok v /\
  scm_plus [v; VInt 1] = Abort /\ scm_minus [v; VInt 1] = Abort /\
  scm_cmp CLt [v; VInt 1] = Abort /\ number_eq v v = Abort.
Proof. exact ratio_abort_witness. Qed.
Print Assumptions c135_ratio_refuted.
Theorem c07_times : forall args, forallb is_number args = true -> scm_times args <> Abort.
Proof. exact times_never_aborts. Qed.
Print Assumptions c07_times.
Theorem c07_div : forall args, scm_div args <> Abort.
Proof. exact div_never_aborts. Qed.
Print Assumptions c07_div.
(** exactly which pairs of numbers abort in + - and the comparisons *)
Theorem c07_plus_aborts_iff : forall a b, is_number a = true -> is_number b = true ->
  (add_number a b = Abort <-> (is_ratio a || is_ratio b) && negb (is_float a || is_float b) = true).
Proof. exact add_abort_iff. Qed.
Print Assumptions c07_plus_aborts_iff.
Theorem c07_minus_aborts_iff : forall a b, is_number a = true -> is_number b = true ->
  (minus_number a b = Abort <-> (is_ratio a || is_ratio b) && negb (is_float a || is_float b) = true).
Proof. exact minus_abort_iff. Qed.
Print Assumptions c07_minus_aborts_iff.
Theorem c07_cmp_aborts_iff : forall o a b, is_number a = true -> is_number b = true ->
  (cmp_number o a b = Abort <-> (is_ratio a || is_ratio b) && negb (is_float a || is_float b) = true).
Proof. exact cmp_abort_iff. Qed.
Print Assumptions c07_cmp_aborts_iff.

(** C08 *)
Theorem c08_roundtrip : forall z r, fits z -> 2 <= r <= 36 ->
  (do s <- number_to_string (VInt z) (Some (VInt r)); string_to_number s (Some (VInt r)))
    = Ok (SNInt z).
Proof. exact roundtrip_explicit. Qed.
Print Assumptions c08_roundtrip.
Theorem c08_roundtrip_default : forall z, fits z ->
  (do s <- number_to_string (VInt z) None; string_to_number s None) = Ok (SNInt z).
Proof. exact roundtrip_default. Qed.
Print Assumptions c08_roundtrip_default.
(** missing: INT64_MIN, whose conversion negates it *)
Theorem c125_min_refuted : forall r, 2 <= r <= 36 ->
  number_to_string (VInt i64_min) (Some (VInt r)) = UB.
Proof. exact to_string_min. Qed.
Print Assumptions c125_min_refuted.
Example c08_nonvacuous : number_to_string (VInt (-255)) (Some (VInt 16)) = Ok [45; 102; 102].
Proof. reflexivity. Qed.

(** C09 *)
Theorem c09_expt : forall b n, 0 <= n -> (forall j, 0 <= j <= n -> in64 (b ^ j) = true) ->
  scm_expt (VInt b) (VInt n) = Ok (VInt (b ^ n)).
Proof. exact expt_ok. Qed.
Print Assumptions c09_expt.
Theorem c09_expt_negative : forall b n, n < 0 -> b <> 0 -> n <> i64_min -> in64 n = true ->
  (forall j, 0 <= j <= - n -> in64 (b ^ j) = true) ->
  scm_expt (VInt b) (VInt n) =
    Ok (VInt (if b ^ (- n) =? 1 then 1 else if b ^ (- n) =? -1 then -1 else 0)).
Proof. exact expt_neg. Qed.
Print Assumptions c09_expt_negative.
Example c09_nonvacuous : scm_expt (VInt (-2)) (VInt 63) = Ok (VInt i64_min) /\
  scm_expt (VInt 2) (VInt (-1)) = Ok (VInt 0) /\ scm_expt (VInt 2) (VInt 63) = UB.
Proof. vm_compute. auto. Qed.
