(** C213: [sqrt] answers with the double nearest to the root, for every number. *)
From Coq Require Import SpecFloat Lia ZifyBool QArith Qpower Lqa.
From Verif Require Import Base NumModel NumSpec NumProofs NumFloat NumSpec2 NumLitSpec SqrtModel SqrtProofs SqrtSquares SqrtSpec.
Local Open Scope Z_scope.

Lemma p2_pos n : (0 < Qpower 2 n)%Q. Proof. apply Qpower_0_lt. reflexivity. Qed.
Lemma p2_add a b : (Qpower 2 (a + b) == Qpower 2 a * Qpower 2 b)%Q.
Proof. apply Qpower_plus. intros H. discriminate H. Qed.
Lemma p2_Z n : 0 <= n -> (inject_Z (2 ^ n) == Qpower 2 n)%Q.
Proof. intros H. rewrite Zpower_Qpower by assumption. reflexivity. Qed.
Lemma sq u : (u ^ 2 == u * u)%Q. Proof. reflexivity. Qed.
(* e in terms of w *)
Lemma p2_twice w e : 2 * w <= e -> (4 * (Qpower 2 e) == 4 * 4 * inject_Z (2 ^ (e - 2 * w)) * (Qpower 2 (w - 1)) ^ 2)%Q.
Proof.
  intros W. rewrite p2_Z by lia.
  assert (E : (Qpower 2 e == Qpower 2 (e - 2 * w) * (Qpower 2 (w - 1) * Qpower 2 (w - 1) * Qpower 2 2))%Q).
  { rewrite <- !p2_add. now replace (e - 2 * w + (w - 1 + (w - 1) + 2)) with e by lia. }
  rewrite E, sq. change (Qpower 2 2) with (4#1)%Q. ring.
Qed.

Lemma root_eq m e w : 2 * w <= e -> (inject_Z m * Qpower 2 e == inject_Z (4 * (m * 2 ^ (e - 2 * w))) * (Qpower 2 (w - 1) * Qpower 2 (w - 1)))%Q.
Proof.
  intros W. pose proof (p2_twice w e W) as E. rewrite sq in E. rewrite !inject_Z_mult. change (inject_Z 4) with 4%Q.
  assert (X : (Qpower 2 e == 4 * inject_Z (2 ^ (e - 2 * w)) * (Qpower 2 (w - 1) * Qpower 2 (w - 1)))%Q) by lra.
  rewrite X. ring.
Qed.
(* comparing an integer of half-units with the root *)
Lemma root_ge m e w c : 2 * w <= e -> c * c <= 4 * (m * 2 ^ (e - 2 * w)) ->
  ((inject_Z c * Qpower 2 (w - 1)) ^ 2 <= inject_Z m * Qpower 2 e)%Q.
Proof.
  intros W H. rewrite (root_eq m e w W), sq. rewrite Zle_Qle, inject_Z_mult in H.
  assert (S : (0 <= Qpower 2 (w - 1) * Qpower 2 (w - 1))%Q) by (pose proof (p2_pos (w - 1)); nra).
  apply Qmult_le_compat_r with (z := (Qpower 2 (w - 1) * Qpower 2 (w - 1))%Q) in H; [|assumption]. lra.
Qed.
Lemma root_le m e w c : 2 * w <= e -> 4 * (m * 2 ^ (e - 2 * w)) <= c * c ->
  (inject_Z m * Qpower 2 e <= (inject_Z c * Qpower 2 (w - 1)) ^ 2)%Q.
Proof.
  intros W H. rewrite (root_eq m e w W), sq. rewrite Zle_Qle in H. rewrite (inject_Z_mult c c) in H.
  assert (S : (0 <= Qpower 2 (w - 1) * Qpower 2 (w - 1))%Q) by (pose proof (p2_pos (w - 1)); nra).
  apply Qmult_le_compat_r with (z := (Qpower 2 (w - 1) * Qpower 2 (w - 1))%Q) in H; [|assumption]. lra.
Qed.

Lemma zq_le a b : a <= b -> (inject_Z a <= inject_Z b)%Q. Proof. now rewrite Zle_Qle. Qed.
Lemma rational_pos m e : (rational (S754_finite false m e) == inject_Z (Z.pos m) * Qpower 2 e)%Q.
Proof. reflexivity. Qed.
(* 2^E in quarter units *)
Lemma p2_quarter E : (Qpower 2 E == 4 * Qpower 2 (E - 2))%Q.
Proof. replace E with (2 + (E - 2)) at 1 by lia. rewrite p2_add. reflexivity. Qed.
Lemma p2_half E : (Qpower 2 (E - 1) == 2 * Qpower 2 (E - 2))%Q.
Proof. replace (E - 1) with (1 + (E - 2)) by lia. rewrite p2_add. reflexivity. Qed.
Lemma p2_le a b : a <= b -> (Qpower 2 a <= Qpower 2 b)%Q.
Proof.
  intros H. replace b with (a + (b - a)) by lia. rewrite p2_add.
  pose proof (p2_pos a) as P. assert (K : (1 <= Qpower 2 (b - a))%Q).
  { rewrite <- p2_Z by lia. change 1%Q with (inject_Z 1). apply zq_le.
    assert (0 < 2 ^ (b - a)) by (apply Z.pow_pos_nonneg; lia). lia. }
  nra.
Qed.

Lemma spacing d M E : a_double d -> (0 <= rational d)%Q -> 2 ^ 52 <= M < 2 ^ 53 -> let u := Qpower 2 (E - 2) in
  ((inject_Z M * Qpower 2 E < rational d)%Q -> (inject_Z (4 * (M + 1)) * u <= rational d)%Q) /\
  ((rational d < inject_Z M * Qpower 2 E)%Q -> (rational d <= inject_Z (4 * (M - 1)) * u)%Q \/
     (M = 2 ^ 52 /\ (rational d <= inject_Z (4 * M - 2) * u)%Q)).
Proof.
  intros D N B u. pose proof (p2_pos (E - 2)) as U. fold u in U.
  assert (QE : (Qpower 2 E == 4 * u)%Q) by apply p2_quarter.
  assert (Zero : (rational d == 0)%Q -> ((inject_Z M * Qpower 2 E < rational d)%Q -> (inject_Z (4 * (M + 1)) * u <= rational d)%Q) /\
    ((rational d < inject_Z M * Qpower 2 E)%Q -> (rational d <= inject_Z (4 * (M - 1)) * u)%Q \/
     (M = 2 ^ 52 /\ (rational d <= inject_Z (4 * M - 2) * u)%Q))).
  { intros R. rewrite R, QE. assert (M0 : (0 <= inject_Z M)%Q) by (change 0%Q with (inject_Z 0); apply zq_le; lia). split.
    - intros L. exfalso. nra.
    - intros _. left. assert (M1 : (0 <= inject_Z (4 * (M - 1)))%Q) by (change 0%Q with (inject_Z 0); apply zq_le; lia). nra. }
  destruct d as [s|s| |s m' e']; try (apply Zero; reflexivity). clear Zero.
  destruct s.
  { exfalso. cbn [rational] in N. pose proof (p2_pos e').
    assert (X : (inject_Z (Z.neg m') <= inject_Z (-1))%Q) by (apply zq_le; lia). change (inject_Z (-1)) with (-1)%Q in X. nra. }
  destruct (valid_range _ _ _ D) as (Bm & _ & _). rewrite rational_pos in *. clear D N.
  destruct (Z.le_gt_cases E e') as [G|G].
  - assert (R : (inject_Z (Z.pos m') * Qpower 2 e' == inject_Z (4 * (Z.pos m' * 2 ^ (e' - E))) * u)%Q).
    { rewrite !inject_Z_mult, p2_Z by lia. change (inject_Z 4) with 4%Q.
      replace e' with (e' - E + E) at 1 by lia. rewrite p2_add, QE. ring. }
    rewrite R, QE. remember (Z.pos m' * 2 ^ (e' - E)) as n eqn:En. clear R En.
    assert (QM : (inject_Z M * (4 * u) == inject_Z (4 * M) * u)%Q) by (rewrite inject_Z_mult; change (inject_Z 4) with 4%Q; ring).
    rewrite QM. split; intros L; apply Qmult_lt_r in L; try assumption; rewrite <- Zlt_Qlt in L.
    + apply Qmult_le_compat_r; [apply zq_le; lia|lra].
    + left. apply Qmult_le_compat_r; [apply zq_le; lia|lra].
  - assert (R : (inject_Z (Z.pos m') * Qpower 2 e' <= inject_Z (2 ^ 54 - 2) * u)%Q).
    { pose proof (p2_le e' (E - 1) ltac:(lia)) as L. rewrite p2_half in L. fold u in L.
      assert (P : (0 <= inject_Z (Z.pos m'))%Q) by (change 0%Q with (inject_Z 0); apply zq_le; lia).
      assert (Q : (inject_Z (2 * Z.pos m') <= inject_Z (2 ^ 54 - 2))%Q) by (apply zq_le; lia).
      rewrite inject_Z_mult in Q. change (inject_Z 2) with 2%Q in Q.
      apply Qle_trans with (inject_Z (Z.pos m') * (2 * u))%Q; [rewrite (Qmult_comm _ (Qpower 2 e')), (Qmult_comm _ (2 * u)); now apply Qmult_le_compat_r|].
      remember (inject_Z (Z.pos m')) as a. remember (inject_Z (2 ^ 54 - 2)) as b. clear -Q U. nra. }
    split.
    + intros L. exfalso. rewrite QE in L.
      assert (Q : (inject_Z (2 ^ 54 - 2) <= inject_Z (4 * M))%Q) by (apply zq_le; lia). rewrite inject_Z_mult in Q. change (inject_Z 4) with 4%Q in Q.
      remember (inject_Z (Z.pos m') * Qpower 2 e')%Q as a. remember (inject_Z (2 ^ 54 - 2)) as b. remember (inject_Z M) as c.
      clear -Q U L R. nra.
    + intros _. destruct (Z.eq_dec M (2 ^ 52)) as [C|C].
      * right. split; [assumption|]. eapply Qle_trans; [exact R|]. apply Qmult_le_compat_r; [apply zq_le; lia|lra].
      * left. eapply Qle_trans; [exact R|]. apply Qmult_le_compat_r; [apply zq_le; lia|lra].
Qed.

Lemma half_units c E w : w <= E -> (inject_Z (c * 2 ^ (E - w)) * Qpower 2 (w - 1) == inject_Z c * (2 * Qpower 2 (E - 2)))%Q.
Proof.
  intros W. rewrite inject_Z_mult, p2_Z by lia. rewrite <- p2_half. replace (E - 1) with (E - w + (w - 1)) by lia.
  rewrite p2_add. ring.
Qed.
Lemma sq_mono a b : (0 <= a)%Q -> (a <= b)%Q -> (a ^ 2 <= b ^ 2)%Q.
Proof. intros A B. rewrite !sq. nra. Qed.
Lemma sq_le_trans_l a b x : (0 <= a)%Q -> (a <= b)%Q -> (b ^ 2 <= x)%Q -> (a ^ 2 <= x)%Q.
Proof. intros A B C. apply Qle_trans with (b ^ 2)%Q; [now apply sq_mono|exact C]. Qed.

Lemma nearest_of m e M E w : 2 * w <= e -> -900 <= w <= E -> E <= 900 -> 2 ^ 52 <= Z.pos M < 2 ^ 53 ->
  within (Troot (Z.pos m * 2 ^ (e - 2 * w))) (Z.pos M) (2 ^ (E - w)) ->
  nearest_root (S754_finite false m e) (S754_finite false M E).
Proof.
  intros W HE GE B (W1 & W2 & W3). unfold nearest_root. split; [apply valid_53; lia|].
  set (u := Qpower 2 (E - 2)). assert (U : (0 < u)%Q) by apply p2_pos.
  assert (QM : (0 <= inject_Z (Z.pos M))%Q) by (change 0%Q with (inject_Z 0); apply zq_le; lia).
  assert (Q1 : (1 <= inject_Z (Z.pos M))%Q) by (change 1%Q with (inject_Z 1); apply zq_le; lia).
  assert (QE : (Qpower 2 E == 4 * u)%Q) by apply p2_quarter.
  rewrite !rational_pos. split; [rewrite QE; nra|].
  unfold Troot in W1, W2, W3. rewrite Z.compare_lt_iff in W1, W3. rewrite Z.compare_gt_iff in W2.
  assert (HI : (inject_Z (Z.pos m) * Qpower 2 e <= ((2 * inject_Z (Z.pos M) + 1) * (2 * u)) ^ 2)%Q).
  { pose proof (root_le (Z.pos m) e w ((2 * Z.pos M + 1) * 2 ^ (E - w)) W ltac:(lia)) as H.
    rewrite half_units in H by lia. fold u in H. rewrite inject_Z_plus, inject_Z_mult in H. exact H. }
  assert (LO : (((2 * inject_Z (Z.pos M) - 1) * (2 * u)) ^ 2 <= inject_Z (Z.pos m) * Qpower 2 e)%Q).
  { pose proof (root_ge (Z.pos m) e w ((2 * Z.pos M - 1) * 2 ^ (E - w)) W ltac:(lia)) as H.
    rewrite half_units in H by lia. fold u in H. change (2 * Z.pos M - 1) with (2 * Z.pos M + - (1)) in H.
    rewrite inject_Z_plus, inject_Z_opp, inject_Z_mult in H. exact H. }
  assert (LQ : Z.pos M = 2 ^ 52 -> (((4 * inject_Z (Z.pos M) - 1) * u) ^ 2 <= inject_Z (Z.pos m) * Qpower 2 e)%Q).
  { intros C. destruct (W3 C) as [N|(h & Eh & N)].
    - pose proof (root_ge (Z.pos m) e w ((2 * Z.pos M) * 2 ^ (E - w)) W ltac:(lia)) as H.
      rewrite half_units in H by lia. fold u in H. rewrite inject_Z_mult in H. change (inject_Z 2) with 2%Q in H.
      eapply sq_le_trans_l; [| |exact H]; nra.
    - rewrite Z.compare_lt_iff in N.
      pose proof (root_ge (Z.pos m) e w ((4 * Z.pos M - 1) * h) W ltac:(lia)) as H.
      change (4 * Z.pos M - 1) with (4 * Z.pos M + - (1)) in H.
      rewrite inject_Z_mult, inject_Z_plus, inject_Z_opp, inject_Z_mult in H.
      change (inject_Z 4) with 4%Q in H. change (- inject_Z 1)%Q with (- (1))%Q in H.
      assert (K : (inject_Z h * Qpower 2 (w - 1) == u)%Q).
      { pose proof (half_units 1 E w ltac:(lia)) as K. rewrite Z.mul_1_l, Eh, inject_Z_mult in K.
        change (inject_Z 1) with 1%Q in K. change (inject_Z 2) with 2%Q in K. fold u in K. lra. }
      rewrite <- Qmult_assoc, K in H. exact H. }
  intros d D N. rewrite !rational_pos. destruct (spacing d (Z.pos M) E D N B) as [SU SL]. fold u in SU, SL.
  rewrite (inject_Z_mult 4 (Z.pos M + 1)), inject_Z_plus in SU. rewrite (inject_Z_mult 4 (Z.pos M - 1)) in SL.
  change (inject_Z 4) with 4%Q in SU, SL. change (inject_Z 1) with 1%Q in SU.
  split; intros L.
  - specialize (SU L). eapply Qle_trans; [exact HI|]. apply sq_mono; [nra|]. rewrite QE.
    apply Qle_shift_div_l; [reflexivity|]. lra.
  - assert (R0 : (0 <= (inject_Z (Z.pos M) * Qpower 2 E + rational d) / 2)%Q).
    { apply Qle_shift_div_l; [reflexivity|]. rewrite QE. nra. }
    assert (Half : forall a, ((inject_Z (Z.pos M) * Qpower 2 E + rational d) <= a * 2)%Q ->
      ((inject_Z (Z.pos M) * Qpower 2 E + rational d) / 2 <= a)%Q).
    { intros a H. apply Qle_shift_div_r; [reflexivity|assumption]. }
    destruct (SL L) as [S|[C S]].
    + eapply sq_le_trans_l; [exact R0| |exact LO]. apply Half. rewrite QE.
      change (Z.pos M - 1) with (Z.pos M + - (1)) in S. rewrite inject_Z_plus, inject_Z_opp in S. change (inject_Z 1) with 1%Q in S. lra.
    + eapply sq_le_trans_l; [exact R0| |exact (LQ C)]. apply Half. rewrite QE.
      change (4 * Z.pos M - 2) with (4 * Z.pos M + - (2)) in S. rewrite inject_Z_plus, inject_Z_opp, inject_Z_mult in S.
      change (inject_Z 4) with 4%Q in S. change (inject_Z 2) with 2%Q in S. lra.
Qed.

(** what kind of double a number is *)
Lemma kinds v : held v -> a_double (inexact v) /\ (dlt (inexact v) dzero = true <-> below_zero v).
Proof.
  assert (Z0 : forall f, dlt f dzero = true <-> (exists m e, f = S754_finite true m e \/ f = S754_infinity true)).
  { intros f. unfold dlt, dzero. destruct f as [s|[]| |[] m e]; cbn [SFcompare]; split; intros H; try reflexivity; try discriminate;
      try (destruct H as (? & ? & [H|H]); discriminate).
    - exists 1%positive, 0. now right.
    - exists m, e. now left. }
  destruct v as [z|n d|f|b|]; cbn [held below_zero inexact]; intros H; try contradiction.
  - assert (Hi : in64 z = true) by (unfold in64, i64_min, i64_max; unfold int64 in H; lia).
    destruct (Z.eq_dec z 0) as [->|N]; [split; [reflexivity|split; [discriminate|lia]]|].
    destruct (int_shape z Hi N) as (M & E & Q & B & He). change (nearest z) with (d_of_Z z). rewrite Q. split; [apply valid_53; lia|].
    unfold dlt, dzero. cbn [SFcompare]. destruct (z <? 0) eqn:L; split; intros; try reflexivity; try lia; discriminate.
  - destruct H as (H1 & H2 & H3). unfold int64 in H1, H2.
    assert (I1 : in64 n = true) by (unfold in64, i64_min, i64_max; lia). assert (I2 : in64 d = true) by (unfold in64, i64_min, i64_max; lia).
    assert (N2 : d <> 0) by lia. destruct (int_shape d I2 N2) as (M2 & E2 & Q2 & B2 & R2). replace (d <? 0) with false in Q2 by lia.
    change (nearest n) with (d_of_Z n). change (nearest d) with (d_of_Z d). rewrite Q2.
    destruct (Z.eq_dec n 0) as [->|N1]; [split; [reflexivity|split; [discriminate|lia]]|].
    destruct (int_shape n I1 N1) as (M1 & E1 & Q1 & B1 & R1). rewrite Q1.
    destruct (div_shape (n <? 0) M1 E1 false M2 E2 B1 B2 R1 R2) as (M & E & Q & B & HE).
    unfold ieee_div. change (SFdiv 53 1024) with (SFdiv prec emax). rewrite Q. split; [apply valid_53; lia|].
    unfold dlt, dzero. cbn [SFcompare]. destruct (n <? 0) eqn:L; cbn [xorb]; split; intros; try reflexivity; try lia; discriminate.
  - split; [assumption|]. apply Z0.
Qed.

Lemma sqrt_double f : a_double f -> (0 < rational f)%Q -> nearest_root f (dsqrt f) /\ (0 < rational (dsqrt f))%Q.
Proof.
  intros D P. destruct f as [s|s| |s m e]; try (exfalso; revert P; apply Qlt_irrefl).
  destruct s.
  { exfalso. cbn [rational] in P. pose proof (p2_pos e).
    assert (X : (inject_Z (Z.neg m) <= inject_Z (-1))%Q) by (apply zq_le; lia). change (inject_Z (-1)) with (-1)%Q in X. nra. }
  destruct (valid_range _ _ _ D) as (Bm & He & _).
  destruct (sqrt_finite m e Bm He) as (M & E & w & R & B & HW & W & HE & Wi).
  unfold dsqrt. rewrite R. split; [apply (nearest_of m e M E w); assumption || lia|].
  rewrite rational_pos. pose proof (p2_pos E). assert (X : (1 <= inject_Z (Z.pos M))%Q) by (change 1%Q with (inject_Z 1); apply zq_le; lia). nra.
Qed.

(** Every number the interpreter can hold: an error exactly below zero; otherwise
    a double, never an exact number, nearest to the root; zeros of either sign,
    infinity and NaN are their own roots. *)
Theorem c213_sqrt_nearest : forall v, held v ->
  (below_zero v -> scm_sqrt v = Err) /\
  (~ below_zero v -> exists r, scm_sqrt v = Ok (VFloat r) /\
     ((0 < rational (inexact v))%Q -> nearest_root (inexact v) r /\ (0 < rational r)%Q) /\
     (is_dzero (inexact v) \/ inexact v = S754_infinity false \/ inexact v = S754_nan -> r = inexact v)).
Proof.
  intros v H. destruct (kinds v H) as [D L].
  assert (Num : is_num v || is_float v || is_ratio v = true) by (destruct v; try contradiction; reflexivity).
  assert (C : to_double v = inexact v) by (destruct v; try contradiction; reflexivity).
  unfold scm_sqrt. rewrite Num, C. split.
  - intros B. now rewrite (proj2 L B).
  - intros B. destruct (dlt (inexact v) dzero) eqn:Q; [exfalso; apply B, L; reflexivity|].
    exists (dsqrt (inexact v)). split; [reflexivity|]. split.
    + apply sqrt_double. assumption.
    + intros [[s ->]|[->| ->]]; reflexivity.
Qed.
Theorem c213_sqrt_rejects : forall v, ~ a_number v -> scm_sqrt v = Err.
Proof. intros [z|n d|f|b|] H; cbn in H; try (exfalso; apply H; exact Logic.I); reflexivity. Qed.

(** An exact square has exactly its root. *)
Theorem c213_sqrt_square : forall k, 0 <= k -> int64 (k * k) ->
  scm_sqrt (VInt (k * k)) = Ok (VFloat (nearest k)) /\ (rational (nearest k) == inject_Z k)%Q.
Proof.
  intros k K0 H. unfold int64 in H. destruct (Z.eq_dec k 0) as [->|N]; [split; reflexivity|].
  assert (K32 : k < 2 ^ 32).
  { destruct (Z.le_gt_cases (2 ^ 32) k) as [G|G]; [exfalso|assumption].
    assert (Y : 2 ^ 32 * 2 ^ 32 <= k * k) by (apply Z.mul_le_mono_nonneg; lia). assert (2 ^ 63 < 2 ^ 32 * 2 ^ 32) by reflexivity. lia. }
  assert (KK : 0 < k * k) by (apply Z.mul_pos_pos; lia). split.
  - unfold scm_sqrt. cbn [is_num orb to_double].
    destruct (int_value (k * k) ltac:(lia)) as (m & e & X & Q & _).
    assert (L : dlt (d_of_Z (k * k)) dzero = false) by (rewrite Q; reflexivity). rewrite L. do 2 f_equal.
    apply sqrt_square; lia.
  - assert (Sm : small k) by (unfold small; lia). destruct (d_of_Z_small k Sm N) as (m & e & Q & He & _ & V).
    replace (k <? 0) with false in Q by lia. change (nearest k) with (d_of_Z k). rewrite Q, rational_pos, V, inject_Z_mult, p2_Z by lia.
    rewrite Z.abs_eq by lia. rewrite <- Qmult_assoc, <- p2_add. replace (- e + e) with 0 by lia. change (Qpower 2 0) with 1%Q. ring.
Qed.

(** non-vacuity: the hypotheses on concrete numbers *)
Example ex_four : scm_sqrt (VInt 4) = Ok (VFloat (nearest 2)). Proof. reflexivity. Qed.
Example ex_two : exists r, scm_sqrt (VInt 2) = Ok (VFloat r) /\ nearest_root (nearest 2) r /\ r = S754_finite false 6369051672525773 (-52).
Proof.
  assert (H : held (VInt 2)) by (cbn; unfold int64; lia). destruct (c213_sqrt_nearest _ H) as [_ B].
  destruct B as (r & E & P & _); [cbn; lia|]. exists r. split; [exact E|]. split; [apply P; reflexivity|].
  apply (f_equal (fun x => match x with Ok (VFloat f) => f | _ => S754_nan end)) in E. cbv beta iota in E. rewrite <- E. vm_compute. reflexivity.
Qed.
Example ex_quarter : scm_sqrt (VRatio 1 4) = Ok (VFloat (S754_finite false (2 ^ 52) (-53))). Proof. reflexivity. Qed.
Example ex_negative : held (VInt (-1)) /\ scm_sqrt (VInt (-1)) = Err. Proof. split; [cbn; unfold int64; lia|reflexivity]. Qed.
Example ex_big : int64 (3037000499 * 3037000499) /\ ~ Z.abs (3037000499 * 3037000499) < 2 ^ 53. Proof. unfold int64; lia. Qed.
(** a wrong answer is not a nearest root: the next double above *)
Example ex_not_nearest : ~ nearest_root (nearest 4) (S754_finite false (2 ^ 52 + 1) (-51)).
Proof.
  intros (_ & _ & H). destruct (H (nearest 2)) as [_ L]; [reflexivity|discriminate|].
  assert (C : (rational (nearest 2) < rational (S754_finite false (2 ^ 52 + 1) (-51)))%Q) by (vm_compute; reflexivity).
  specialize (L C). revert L. vm_compute. intros L. now apply L.
Qed.
