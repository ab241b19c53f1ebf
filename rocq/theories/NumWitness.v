(** Concrete witnesses and packaged corollaries used by NumProperties. *)
From Coq Require Import SpecFloat Lia ZifyBool.
From Verif Require Import Base NumModel NumSpec NumProofs NumFloat StrNumModel StrNumProofs.

Lemma minus_unary_spec a : in64 a = true ->
  scm_minus [VInt a] = if a =? i64_min then UB else Ok (VInt (- a)).
Proof.
  intros H. rewrite minus_unary. destruct (a =? i64_min) eqn:E.
  - assert (a = i64_min) by lia. subst. reflexivity.
  - rewrite i64_ok by (unfold in64, i64_min, i64_max in *; lia). reflexivity.
Qed.
Lemma division_laws x y : div_ok x y -> exists q r m,
  scm_quotient (VInt x) (VInt y) = Ok (VInt q) /\
  scm_remainder (VInt x) (VInt y) = Ok (VInt r) /\
  scm_modulo (VInt x) (VInt y) = Ok (VInt m) /\
  x = y * q + r /\ Z.abs r < Z.abs y /\ (r = 0 \/ Z.sgn r = Z.sgn x) /\
  Z.abs m < Z.abs y /\ (m = 0 \/ Z.sgn m = Z.sgn y) /\ (exists k, x = y * k + m).
Proof.
  intros H. exists (Z.quot x y), (Z.rem x y), (x mod y).
  split; [apply quotient_ok; exact H|]. split; [apply remainder_ok; exact H|].
  split; [apply modulo_ok; exact H|].
  destruct H as (_ & _ & Hn & _).
  pose proof (Z.quot_rem' x y). pose proof (rem_bound x y Hn) as [B _].
  pose proof (Z.rem_sign_nz x y Hn) as S.
  split; [assumption|]. split; [assumption|].
  split; [destruct (Z.eq_dec (Z.rem x y) 0); tauto|].
  pose proof (Z.mod_bound_or x y Hn) as M.
  split; [lia|]. split; [lia|]. exists (x / y). apply Z.div_mod. exact Hn.
Qed.
Lemma gcd_prim_spec args : Forall fits args -> exists g,
  scm_gcd (map VInt args) = Ok (VInt g) /\ 0 <= g /\
  (forall x, In x args -> (g | x)) /\
  (forall d, (forall x, In x args -> (d | x)) -> (d | g)).
Proof. intros H. exists (zgcd args). split; [apply scm_gcd_ok; exact H|apply zgcd_spec]. Qed.
Lemma lcm_prim_spec args : Forall fits args ->
  (forall k, (k <= length args)%nat -> in64 (zlcm (firstn k args)) = true) -> exists l,
  scm_lcm (map VInt args) = Ok (VInt l) /\ 0 <= l /\
  (forall x, In x args -> (x | l)) /\
  (forall m, (forall x, In x args -> (x | m)) -> (l | m)).
Proof. intros H Hb. exists (zlcm args). split; [apply scm_lcm_ok; assumption|apply zlcm_spec]. Qed.
Lemma gcd_min_ub rest : scm_gcd (VInt i64_min :: rest) = UB /\ scm_lcm (VInt i64_min :: rest) = UB.
Proof. split; reflexivity. Qed.

Lemma coprime_frac_unique n d n' d' :
  1 <= d -> 1 <= d' -> Z.gcd n d = 1 -> Z.gcd n' d' = 1 -> n * d' = n' * d -> n = n' /\ d = d'.
Proof.
  intros Hd Hd' G G' E.
  assert (D1 : (d | d')).
  { apply (Z.gauss d n d'); [exists n'; lia|]. rewrite Z.gcd_comm. exact G. }
  assert (D2 : (d' | d)).
  { apply (Z.gauss d' n' d); [exists n; lia|]. rewrite Z.gcd_comm. exact G'. }
  assert (d = d') by (apply Z.divide_antisym_nonneg; lia || assumption).
  subst d'. split; [nia|reflexivity].
Qed.
Lemma normal_unique v w p q : q <> 0 ->
  normal v -> normal w -> denotes v p q -> denotes w p q -> v = w.
Proof.
  intros Hq Nv Nw Dv Dw. destruct v as [z|n d| | |], w as [z'|n' d'| | |]; cbn in *; try contradiction.
  - f_equal. nia.
  - destruct Nw as (_ & _ & Hd & G). destruct Dw as [_ Dw]. exfalso.
    assert (n' = z * d') by nia. subst n'.
    rewrite Z.gcd_comm, Z.mul_comm in G. rewrite Z.gcd_mul_diag_l in G by lia. lia.
  - destruct Nv as (_ & _ & Hd & G). destruct Dv as [_ Dv]. exfalso.
    assert (n = z' * d) by nia. subst n.
    rewrite Z.gcd_comm, Z.mul_comm in G. rewrite Z.gcd_mul_diag_l in G by lia. lia.
  - destruct Nv as (_ & _ & Hd & G), Nw as (_ & _ & Hd' & G'), Dv as [_ Dv], Dw as [_ Dw].
    destruct (coprime_frac_unique n d n' d') as [-> ->]; try lia; [|reflexivity].
    apply (Z.mul_reg_r _ _ q Hq). nia.
Qed.
Lemma max_prim_spec x args : small x -> Forall small args -> exists m,
  scm_max (map VInt (x :: args)) = Ok (VInt m) /\
  In m (x :: args) /\ forall y, In y (x :: args) -> y <= m.
Proof. intros Hx H. exists (zmax x args). split; [apply max_small; assumption|apply zmax_spec]. Qed.
Lemma min_prim_spec x args : small x -> Forall small args -> exists m,
  scm_min (map VInt (x :: args)) = Ok (VInt m) /\
  In m (x :: args) /\ forall y, In y (x :: args) -> m <= y.
Proof. intros Hx H. exists (zmin x args). split; [apply min_small; assumption|apply zmin_spec]. Qed.
Lemma odd_witness : in64 (2 ^ 53 + 1) = true /\
  is_odd (VInt (2 ^ 53 + 1)) = Ok (VBool false) /\ is_even (VInt (2 ^ 53 + 1)) = Ok (VBool true).
Proof. vm_compute. auto. Qed.
Lemma max_witness :
  scm_max (map VInt [2 ^ 53 + 1]) = Ok (VInt (2 ^ 53)) /\ scm_max (map VInt [i64_max]) = UB.
Proof. vm_compute. auto. Qed.
Lemma ratio_abort_witness : exists v, scm_div [VInt 1; VInt 2] = Ok v /\
  scm_plus [v; VInt 1] = Abort /\ scm_minus [v; VInt 1] = Abort /\
  scm_cmp CLt [v; VInt 1] = Abort /\ number_eq v v = Abort.
Proof. exists (VRatio 1 2). vm_compute. auto. Qed.
Lemma roundtrip_explicit z r : fits z -> 2 <= r <= 36 ->
  (do s <- number_to_string (VInt z) (Some (VInt r)); string_to_number s (Some (VInt r)))
    = Ok (SNInt z).
Proof. intros Hz Hr. apply (roundtrip_radix z r); auto. apply get_radix_ok. exact Hr. Qed.
Lemma roundtrip_default z : fits z ->
  (do s <- number_to_string (VInt z) None; string_to_number s None) = Ok (SNInt z).
Proof. intros Hz. apply (roundtrip_radix z 10); auto. lia. Qed.
Lemma to_string_min r : 2 <= r <= 36 -> number_to_string (VInt i64_min) (Some (VInt r)) = UB.
Proof. intros H. unfold number_to_string. rewrite get_radix_ok by exact H. reflexivity. Qed.
