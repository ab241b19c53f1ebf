(** The root of an exact square. *)
From Coq Require Import SpecFloat Lia ZifyBool.
From Verif Require Import Base NumModel NumSpec NumProofs NumFloat SqrtModel SqrtProofs.
Local Open Scope Z_scope.

Lemma core Y K M : 0 < K -> - (K * K) <= (Y - K * K) * 2 ^ 53 <= K * K -> (K = 2 ^ 53 -> K * K <= Y) -> 2 ^ 52 <= M < 2 ^ 53 ->
  (2 * M - 1) * (2 * M - 1) <= 4 * Y -> 4 * Y <= (2 * M + 1) * (2 * M + 1) -> M = K.
Proof.
  intros K0 B PW BM LO HI. remember (K * K) as S eqn:ES.
  destruct (Z.lt_trichotomy M K) as [C|[C|C]]; [exfalso|assumption|exfalso].
  - assert (A : (2 * M + 1) * (2 * M + 1) <= (2 * K - 1) * (2 * K - 1)) by (apply Z.mul_le_mono_nonneg; lia).
    assert (A2 : (2 * K - 1) * (2 * K - 1) = 4 * S - 4 * K + 1) by (rewrite ES; ring).
    assert (K53 : 2 ^ 53 <= K).
    { destruct (Z.le_gt_cases (2 ^ 53) K) as [G|G]; [assumption|exfalso].
      assert (A3 : K * K <= K * (2 ^ 53 - 1)) by (apply Z.mul_le_mono_nonneg_l; lia). rewrite <- ES in A3.
      (* 2^51 * (4K - 1) <= S *) lia. }
    assert (A4 : (2 * M + 1) * (2 * M + 1) <= (2 ^ 54 - 1) * (2 ^ 54 - 1)) by (apply Z.mul_le_mono_nonneg; lia).
    destruct (Z.eq_dec K (2 ^ 53)) as [E|E].
    + specialize (PW E). assert (S = 2 ^ 106) by (rewrite ES, E; reflexivity).
      assert ((2 ^ 54 - 1) * (2 ^ 54 - 1) < 4 * 2 ^ 106) by reflexivity. lia.
    + assert (A5 : (2 ^ 53 + 1) * (2 ^ 53 + 1) <= K * K) by (apply Z.mul_le_mono_nonneg; lia). rewrite <- ES in A5.
      assert (A6 : 4 * S * (2 ^ 53 - 1) <= 4 * Y * 2 ^ 53) by lia.
      assert (A7 : 4 * ((2 ^ 53 + 1) * (2 ^ 53 + 1)) * (2 ^ 53 - 1) > (2 ^ 54 - 1) * (2 ^ 54 - 1) * 2 ^ 53) by reflexivity.
      remember ((2 ^ 54 - 1) * (2 ^ 54 - 1)) as q. remember ((2 ^ 53 + 1) * (2 ^ 53 + 1)) as r. lia.
  - assert (A : (2 * K + 1) * (2 * K + 1) <= (2 * M - 1) * (2 * M - 1)) by (apply Z.mul_le_mono_nonneg; lia).
    assert (A2 : (2 * K + 1) * (2 * K + 1) = 4 * S + 4 * K + 1) by (rewrite ES; ring).
    assert (A3 : K * K <= K * 2 ^ 53) by (apply Z.mul_le_mono_nonneg_l; lia). rewrite <- ES in A3. lia.
Qed.

(* the double of a positive int64, as an exact integer over a power of two *)
Lemma int_value z : 0 < z < 2 ^ 63 -> exists m e X, d_of_Z z = S754_finite false m e /\ Z.pos m < 2 ^ 53 /\ -53 <= e <= 20 /\
  (forall n, 0 <= n + e -> 0 <= n -> Z.pos m * 2 ^ (n + e) = X * 2 ^ n) /\
  - z <= (X - z) * 2 ^ 53 <= z /\ (forall a, 0 <= a -> z = 2 ^ a -> z <= X) /\ 0 < X.
Proof.
  intros Hz. destruct (Z_lt_ge_dec z (2 ^ 53)) as [S|S].
  - assert (Sm : small z) by (unfold small; lia). destruct (d_of_Z_small z Sm ltac:(lia)) as (m & e & Q & He & D & V).
    replace (z <? 0) with false in Q by lia. exists m, e, z. split; [exact Q|].
    pose proof (digits2_pos_spec m) as BM. rewrite D in BM. split; [lia|]. split; [lia|]. split.
    + intros n H1 H2. rewrite V, Z.abs_eq by lia. rewrite <- Z.mul_assoc, <- Z.pow_add_r by lia. do 2 f_equal. lia.
    + split; [lia|]. split; [lia|lia].
  - destruct z as [|p|p]; [lia| |lia]. destruct (round_int false p ltac:(lia)) as (m & e & R & He & B & (W1 & W2 & W3)).
    exists m, e, (Z.pos m * 2 ^ e). split; [exact R|]. split; [lia|]. split; [lia|].
    unfold Tint in W1, W2, W3. rewrite Z.compare_lt_iff in W1, W3. rewrite Z.compare_gt_iff in W2.
    assert (P : 0 < 2 ^ e) by (apply Z.pow_pos_nonneg; lia).
    split; [|split; [|split; [|apply Z.mul_pos_pos; lia]]].
    + intros n H1 H2. rewrite <- Z.mul_assoc, <- Z.pow_add_r by lia. do 2 f_equal. lia.
    + remember (2 ^ e) as k eqn:Ek. remember (Z.pos m * k) as X eqn:EX.
      assert (F1 : (2 * Z.pos m - 1) * k = 2 * X - k) by (rewrite EX; ring).
      assert (F2 : (2 * Z.pos m + 1) * k = 2 * X + k) by (rewrite EX; ring).
      rewrite F1 in W1. rewrite F2 in W2. apply Z.nlt_ge in W1. apply Z.nlt_ge in W2. clear F1 F2.
      destruct (Z.eq_dec (Z.pos m) (2 ^ 52)) as [C|C].
      * rewrite C in EX. destruct (W3 C) as [N|(h & Eh & N)].
        -- assert (2 * X <= 2 * Z.pos p) by (rewrite C in N; lia). lia.
        -- rewrite Z.compare_lt_iff, C in N. clear W3. subst k. lia.
      * assert (M1 : (2 ^ 52 + 1) * k <= X) by (rewrite EX; apply Z.mul_le_mono_nonneg_r; lia). lia.
    + intros a A0 E. destruct (Z.le_gt_cases (Z.pos p) (Z.pos m * 2 ^ e)) as [G|G]; [assumption|exfalso].
      assert (A53 : 53 <= a) by (apply (Z.pow_le_mono_r_iff 2); lia).
      assert (F : 2 ^ a = 2 ^ (a - e) * 2 ^ e) by (rewrite <- Z.pow_add_r by lia; f_equal; lia).
      rewrite E, F in *. apply Z.mul_lt_mono_pos_r in G; [|assumption].
      assert (Y : (Z.pos m + 1) * 2 ^ e <= 2 ^ (a - e) * 2 ^ e) by (apply Z.mul_le_mono_nonneg_r; lia). lia.
Qed.

Lemma sqrt_square k : 0 < k < 2 ^ 32 -> k * k < 2 ^ 63 -> dsqrt (d_of_Z (k * k)) = d_of_Z k.
Proof.
  intros K0 KM. assert (KK : 0 < k * k) by (apply Z.mul_pos_pos; lia).
  destruct (int_value (k * k) ltac:(lia)) as (m & e & X & Q & Bm & He & VX & ER & PW & X0). rewrite Q.
  assert (E0 : -1074 <= e <= 971) by lia.
  destruct (sqrt_finite m e Bm E0) as (M & E & w & R & BM & HW & HE & GE & (W1 & W2 & _)).
  unfold dsqrt. rewrite R. unfold Troot in W1, W2. rewrite Z.compare_lt_iff in W1. rewrite Z.compare_gt_iff in W2.
  apply Z.nlt_ge in W1. apply Z.nlt_ge in W2.
  assert (VW : Z.pos m * 2 ^ (e - 2 * w) = X * 2 ^ (- (2 * w))).
  { rewrite <- VX by lia. do 2 f_equal. lia. }
  rewrite VW in W1, W2. clear VW VX.
  assert (XB : X < 2 ^ 64) by lia.
  assert (EN : E < 0).
  { destruct (Z.le_gt_cases 0 E) as [G|G]; [exfalso|assumption].
    assert (F : 2 ^ (- (2 * w)) = 2 ^ (- w) * 2 ^ (- w)) by (rewrite <- Z.pow_add_r by lia; f_equal; lia).
    assert (S0 : 0 < 2 ^ (- w)) by (apply Z.pow_pos_nonneg; lia).
    assert (S1 : 2 ^ (- w) <= 2 ^ (E - w)) by (apply Z.pow_le_mono_r; lia).
    remember (2 ^ (- w)) as S. remember (2 ^ (E - w)) as S'.
    assert (L1 : (2 ^ 53 - 1) * S <= (2 * Z.pos M - 1) * S') by (apply Z.mul_le_mono_nonneg; lia).
    assert (L2 : (2 ^ 53 - 1) * S * ((2 ^ 53 - 1) * S) <= 4 * (X * (S * S))).
    { rewrite F in W1. eapply Z.le_trans; [|exact W1]. apply Z.mul_le_mono_nonneg; lia. }
    assert (SS : 0 < S * S) by (apply Z.mul_pos_pos; lia).
    assert (L3 : (2 ^ 53 - 1) * (2 ^ 53 - 1) * (S * S) <= 4 * X * (S * S)) by lia.
    apply Z.mul_le_mono_pos_r in L3; [|assumption]. lia. }
  assert (P0 : 0 < 2 ^ (- E)) by (apply Z.pow_pos_nonneg; lia).
  assert (S0 : 0 < 2 ^ (E - w)) by (apply Z.pow_pos_nonneg; lia).
  assert (F : 2 ^ (- (2 * w)) = 2 ^ (- E) * 2 ^ (E - w) * (2 ^ (- E) * 2 ^ (E - w))).
  { rewrite <- !Z.pow_add_r by lia. f_equal. lia. }
  rewrite F in W1, W2. clear F.
  assert (MK : Z.pos M = k * 2 ^ (- E)).
  { assert (KP : k * 2 ^ (- E) = 2 ^ 53 -> k * k <= X).
    { intros H. destruct (Z.le_gt_cases (- E) 53) as [G|G].
      - assert (KE : k = 2 ^ (53 + E)).
        { apply Z.mul_reg_r with (2 ^ (- E)); [lia|]. rewrite H, <- Z.pow_add_r by lia. f_equal. lia. }
        apply (PW (2 * (53 + E))); [lia|]. rewrite KE, <- Z.pow_add_r by lia. f_equal. lia.
      - exfalso. assert (2 ^ 53 < 2 ^ (- E)) by (apply Z.pow_lt_mono_r; lia).
        assert (1 * 2 ^ (- E) <= k * 2 ^ (- E)) by (apply Z.mul_le_mono_nonneg_r; lia). lia. }
    remember (2 ^ (- E)) as P eqn:EP. remember (2 ^ (E - w)) as S eqn:ES.
    assert (PP : 0 < P * P) by (apply Z.mul_pos_pos; lia). assert (SS : 0 < S * S) by (apply Z.mul_pos_pos; lia).
    assert (QK : k * P * (k * P) = k * k * (P * P)) by ring.
    apply (core (X * (P * P))).
    - apply Z.mul_pos_pos; lia.
    - rewrite QK. destruct ER as [A B].
      assert (A1 : - (k * k) * (P * P) <= (X - k * k) * 2 ^ 53 * (P * P)) by (apply Z.mul_le_mono_nonneg_r; lia).
      assert (B1 : (X - k * k) * 2 ^ 53 * (P * P) <= k * k * (P * P)) by (apply Z.mul_le_mono_nonneg_r; lia). lia.
    - intros H. rewrite QK. apply Z.mul_le_mono_nonneg_r; [lia|]. now apply KP.
    - assumption.
    - apply Z.mul_le_mono_pos_r with (S * S); [assumption|]. lia.
    - apply Z.mul_le_mono_pos_r with (S * S); [assumption|]. lia. }
  assert (Sm : small k) by (unfold small; lia). destruct (d_of_Z_small k Sm ltac:(lia)) as (m' & e' & Q' & He' & D & V).
  replace (k <? 0) with false in Q' by lia. rewrite Q'. rewrite Z.abs_eq in V by lia.
  pose proof (digits2_pos_spec m') as B'. rewrite D in B'. change (53 - 1) with 52 in B'.
  assert (EE : E = e').
  { destruct (Z.lt_trichotomy E e') as [C|[C|C]]; [exfalso|assumption|exfalso].
    - assert (Y : Z.pos M = Z.pos m' * 2 ^ (e' - E)) by (rewrite MK, V, <- Z.mul_assoc, <- Z.pow_add_r by lia; do 2 f_equal; lia).
      assert (2 ^ 1 <= 2 ^ (e' - E)) by (apply Z.pow_le_mono_r; lia).
      assert (Z.pos m' * 2 ^ 1 <= Z.pos m' * 2 ^ (e' - E)) by (apply Z.mul_le_mono_nonneg_l; lia). lia.
    - assert (Y : Z.pos m' = Z.pos M * 2 ^ (E - e')) by (rewrite MK, V, <- Z.mul_assoc, <- Z.pow_add_r by lia; do 2 f_equal; lia).
      assert (2 ^ 1 <= 2 ^ (E - e')) by (apply Z.pow_le_mono_r; lia).
      assert (Z.pos M * 2 ^ 1 <= Z.pos M * 2 ^ (E - e')) by (apply Z.mul_le_mono_nonneg_l; lia). lia. }
  subst e'. assert (M = m') by lia. now subst.
Qed.
