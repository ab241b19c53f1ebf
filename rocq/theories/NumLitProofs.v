(** Exactness of double multiplication and addition on integers below 2^53. *)
From Coq Require Import SpecFloat Lia.
From Verif Require Import Base NumModel NumSpec NumProofs NumFloat.

Lemma shr_1_even m : 0 <= m -> shr_1 {| shr_m := 2 * m; shr_r := false; shr_s := false |} = {| shr_m := m; shr_r := false; shr_s := false |}.
Proof. intro H. destruct m as [|p|p]; [reflexivity|reflexivity|lia]. Qed.
Lemma iter_shr_exact : forall n m, 0 <= m ->
  SpecFloat.iter_pos shr_1 n {| shr_m := m * 2 ^ Z.pos n; shr_r := false; shr_s := false |} = {| shr_m := m; shr_r := false; shr_s := false |}.
Proof.
  induction n as [n IH|n IH|]; intros m H; cbn [SpecFloat.iter_pos].
  - assert (P : 0 <= 2 ^ Z.pos n) by (apply Z.pow_nonneg; lia).
    replace (m * 2 ^ Z.pos n~1) with (2 * ((m * 2 ^ Z.pos n) * 2 ^ Z.pos n)).
    + rewrite shr_1_even by nia. rewrite IH by nia. now apply IH.
    + rewrite (Pos2Z.inj_xI n). replace (2 * Z.pos n + 1) with (Z.pos n + Z.pos n + 1) by lia. rewrite !Z.pow_add_r by lia. ring.
  - assert (P : 0 <= 2 ^ Z.pos n) by (apply Z.pow_nonneg; lia).
    replace (m * 2 ^ Z.pos n~0) with ((m * 2 ^ Z.pos n) * 2 ^ Z.pos n).
    + rewrite IH by nia. now apply IH.
    + rewrite (Pos2Z.inj_xO n). replace (2 * Z.pos n) with (Z.pos n + Z.pos n) by lia. rewrite !Z.pow_add_r by lia. ring.
  - replace (m * 2 ^ 1) with (2 * m) by lia. now apply shr_1_even.
Qed.
(* the double of a positive integer below 2^53, explicitly *)
Lemma of_pos n s : Z.pos n < 2 ^ 53 -> exists m e, binary_round prec emax s n 0 = S754_finite s m e /\
  -53 <= e <= 0 /\ Z.pos (digits2_pos m) = 53 /\ Z.pos m = Z.pos n * 2 ^ (- e) /\ e = Z.pos (digits2_pos n) - 53.
Proof.
  intro H. destruct (d_of_pos_exact n H s) as (m & e & E1 & E2 & E3 & E4). exists m, e. repeat split; auto; try lia.
  pose proof (digits2_pos_spec m) as M. rewrite E3, E4 in M.
  enough (Z.pos (digits2_pos n) = 53 + e) by lia.
  assert (P : 0 < 2 ^ (- e)) by (apply Z.pow_pos_nonneg; lia).
  assert (NP : 0 < 53 + e).
  { destruct (Z_lt_ge_dec 0 (53 + e)); [auto|]. exfalso. assert (e = -53) by lia. subst e. change (2 ^ (53)) with (2 * 2 ^ 52) in M. change (- -53) with 53 in M.
    assert (2 ^ 53 = 2 * 2 ^ 52) by reflexivity. nia. }
  apply digits2_unique; [auto|].
  replace (2 ^ 53) with (2 ^ (53 + e) * 2 ^ (- e)) in M by (rewrite <- Z.pow_add_r by lia; f_equal; lia).
  replace (2 ^ (53 - 1)) with (2 ^ (53 + e - 1) * 2 ^ (- e)) in M by (rewrite <- Z.pow_add_r by lia; f_equal; lia).
  split; nia.
Qed.
(* rounding n * 2^k * 2^-k, with at least 53 digits, gives the double of n *)
Lemma round_scaled n k M s : Z.pos n < 2 ^ 53 -> 0 <= k <= 400 -> Z.pos M = Z.pos n * 2 ^ k -> 53 <= Z.pos (digits2_pos M) ->
  binary_round_aux prec emax s (Z.pos M) (- k) loc_Exact = binary_round prec emax s n 0.
Proof.
  intros Hn Hk HM HD.
  destruct (of_pos n s Hn) as (m & e & -> & E1 & E2 & E3 & E4).
  pose proof (digits2_pos_spec M) as DM. pose proof (digits2_pos_spec n) as DN.
  assert (P : 0 < 2 ^ k) by (apply Z.pow_pos_nonneg; lia).
  set (dn := Z.pos (digits2_pos n)) in *. set (dM := Z.pos (digits2_pos M)) in *.
  assert (ED : dM = dn + k).
  { unfold dM. apply digits2_unique; [unfold dn; lia|]. rewrite HM.
    replace (dn + k - 1) with (dn - 1 + k) by lia. rewrite !Z.pow_add_r by (unfold dn; lia). split; nia. }
  assert (ND : dn <= 53) by lia.
  unfold binary_round_aux, shr_fexp. cbn [Zdigits2]. fold dM. rewrite fexp_normal by lia.
  replace (dM + - k - 53 - - k) with (dM - 53) by lia. cbn [shr_record_of_loc].
  assert (X : shr {| shr_m := Z.pos M; shr_r := false; shr_s := false |} (- k) (dM - 53) = ({| shr_m := Z.pos m; shr_r := false; shr_s := false |}, e)).
  { destruct (dM - 53) as [|q|q] eqn:Q; [| |lia]; cbn [shr].
    - assert (EK : e = - k) by lia. clear E4. rewrite E3, HM, EK. replace (- - k) with k by lia. reflexivity.
    - replace (Z.pos M) with (Z.pos m * 2 ^ Z.pos q).
      + rewrite iter_shr_exact by lia. f_equal. lia.
      + rewrite HM, E3. rewrite <- Z.mul_assoc, <- Z.pow_add_r by lia. f_equal. f_equal. lia. }
  rewrite X. cbn [shr_m loc_of_shr_record round_nearest_even Zdigits2]. rewrite E2. rewrite fexp_normal by lia.
  replace (53 + e - 53 - e) with 0 by lia. cbn [shr shr_m].
  assert (Zle_bool e (emax - prec) = true) as -> by (unfold emax, prec; lia). reflexivity.
Qed.
Lemma d_mul_small a b : 0 <= a -> 0 <= b -> a * b < 2 ^ 53 -> a < 2 ^ 53 -> b < 2 ^ 53 -> dmul (d_of_Z a) (d_of_Z b) = d_of_Z (a * b).
Proof.
  intros Ha Hb H La Lb. destruct a as [|p|p]; [|destruct b as [|q|q]|]; try lia.
  - destruct b as [|q|q]; try lia; [reflexivity|]. destruct (of_pos q false Lb) as (m & e & E & _).
    change (d_of_Z (Z.pos q)) with (binary_round prec emax false q 0). rewrite E. reflexivity.
  - destruct (of_pos p false La) as (m & e & E & _). change (d_of_Z (Z.pos p)) with (binary_round prec emax false p 0). rewrite E. rewrite Z.mul_0_r. reflexivity.
  - destruct (of_pos p false La) as (m1 & e1 & E1 & R1 & D1 & M1 & _). destruct (of_pos q false Lb) as (m2 & e2 & E2 & R2 & D2 & M2 & _).
    change (d_of_Z (Z.pos p)) with (binary_round prec emax false p 0). change (d_of_Z (Z.pos q)) with (binary_round prec emax false q 0). rewrite E1, E2.
    change (Z.pos p * Z.pos q) with (Z.pos (p * q)) in *. change (d_of_Z (Z.pos (p * q))) with (binary_round prec emax false (p * q) 0).
    unfold dmul. cbn [SFmul xorb].
    assert (MM : Z.pos (m1 * m2) = Z.pos (p * q) * 2 ^ (- (e1 + e2))).
    { rewrite !Pos2Z.inj_mul, M1, M2. replace (- (e1 + e2)) with (- e1 + - e2) by lia. rewrite Z.pow_add_r by lia. ring. }
    replace (e1 + e2) with (- - (e1 + e2)) by lia. apply round_scaled; auto; [lia|].
    pose proof (digits2_pos_spec m1) as [B1 _]. pose proof (digits2_pos_spec m2) as [B2 _]. rewrite D1 in B1. rewrite D2 in B2.
    pose proof (digits2_pos_spec (m1 * m2)) as [_ B3].
    assert (53 - 1 < Z.pos (digits2_pos (m1 * m2))); [|lia]. apply (Z.pow_lt_mono_r_iff 2); [lia|lia|]. rewrite Pos2Z.inj_mul in B3. change (53 - 1) with 52 in *. nia.
Qed.
Lemma fst_shl m e e' : e' <= e -> Z.pos (fst (shl_align m e e')) = Z.pos m * 2 ^ (e - e').
Proof.
  intro H. unfold shl_align. destruct (e' - e) as [|q|q] eqn:Q; cbn [fst]; [|lia|].
  - replace (e - e') with 0 by lia. lia.
  - rewrite shift_pos_Z. f_equal. f_equal. lia.
Qed.
Lemma d_add_small a b : 0 <= a -> 0 <= b -> a + b < 2 ^ 53 -> dadd (d_of_Z a) (d_of_Z b) = d_of_Z (a + b).
Proof.
  intros Ha Hb H. destruct a as [|p|p]; [|destruct b as [|q|q]|]; try lia.
  - destruct b as [|q|q]; try lia; [reflexivity|]. destruct (of_pos q false ltac:(lia)) as (m & e & E & _).
    change (d_of_Z (0 + Z.pos q)) with (d_of_Z (Z.pos q)). change (d_of_Z (Z.pos q)) with (binary_round prec emax false q 0). rewrite E. reflexivity.
  - rewrite Z.add_0_r. destruct (of_pos p false ltac:(lia)) as (m & e & E & _). change (d_of_Z (Z.pos p)) with (binary_round prec emax false p 0). rewrite E. reflexivity.
  - destruct (of_pos p false ltac:(lia)) as (m1 & e1 & E1 & R1 & D1 & M1 & _). destruct (of_pos q false ltac:(lia)) as (m2 & e2 & E2 & R2 & D2 & M2 & _).
    change (d_of_Z (Z.pos p)) with (binary_round prec emax false p 0). change (d_of_Z (Z.pos q)) with (binary_round prec emax false q 0). rewrite E1, E2.
    change (Z.pos p + Z.pos q) with (Z.pos (p + q)) in *. change (d_of_Z (Z.pos (p + q))) with (binary_round prec emax false (p + q) 0).
    unfold dadd. cbn [SFadd cond_Zopp].
    set (ez := Z.min e1 e2).
    set (n1 := fst (shl_align m1 e1 ez)). set (n2 := fst (shl_align m2 e2 ez)).
    change (Z.pos n1 + Z.pos n2) with (Z.pos (n1 + n2)). cbn [binary_normalize].
    assert (N1 : Z.pos n1 = Z.pos p * 2 ^ (- ez)).
    { unfold n1. rewrite fst_shl by lia. rewrite M1, <- Z.mul_assoc, <- Z.pow_add_r by lia. f_equal. f_equal. lia. }
    assert (N2 : Z.pos n2 = Z.pos q * 2 ^ (- ez)).
    { unfold n2. rewrite fst_shl by lia. rewrite M2, <- Z.mul_assoc, <- Z.pow_add_r by lia. f_equal. f_equal. lia. }
    assert (NS : Z.pos (n1 + n2) = Z.pos (p + q) * 2 ^ (- ez)) by (rewrite !Pos2Z.inj_add, N1, N2; ring).
    assert (D : 53 <= Z.pos (digits2_pos (n1 + n2))).
    { pose proof (digits2_pos_spec (n1 + n2)) as [_ B3]. pose proof (digits2_pos_spec m1) as [B1 _]. rewrite D1 in B1.
      assert (Z.pos m1 <= Z.pos n1). { unfold n1. rewrite fst_shl by lia. assert (1 <= 2 ^ (e1 - ez)) by (change 1 with (2 ^ 0); apply Z.pow_le_mono_r; lia). nia. }
      assert (53 - 1 < Z.pos (digits2_pos (n1 + n2))); [|lia]. apply (Z.pow_lt_mono_r_iff 2); [lia|lia|]. rewrite Pos2Z.inj_add in B3. lia. }
    unfold binary_round at 1. rewrite fexp_normal by lia.
    assert (SH : shl_align (n1 + n2) ez (Z.pos (digits2_pos (n1 + n2)) + ez - 53) = ((n1 + n2)%positive, ez)).
    { unfold shl_align. destruct (Z.pos (digits2_pos (n1 + n2)) + ez - 53 - ez) as [|w|w] eqn:Q; [reflexivity|reflexivity|lia]. }
    rewrite SH. replace ez with (- - ez) by lia. apply round_scaled; auto; lia.
Qed.
