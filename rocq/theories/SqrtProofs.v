(** Rounding to 53 bits, on integers. *)
From Coq Require Import SpecFloat Lia ZifyBool.
From Verif Require Import Base NumModel NumSpec NumProofs NumFloat SqrtModel.
Local Open Scope Z_scope.

(** [T c]: how twice the exact value compares with the non-negative integer c. *)
Section Rounding.
Variable T : Z -> comparison.
Hypothesis T_lt : forall c c', 0 <= c <= c' -> T c = Lt -> T c' = Lt.
Hypothesis T_gt : forall c c', 0 <= c' <= c -> T c = Gt -> T c' = Gt.
Hypothesis T_eqlt : forall c c', 0 <= c < c' -> T c = Eq -> T c' = Lt.
Hypothesis T_eqgt : forall c c', 0 <= c' < c -> T c = Eq -> T c' = Gt.

Definition inv (r : shr_record) (k : Z) : Prop :=
  let M := shr_m r in
  0 <= M /\
  match shr_r r, shr_s r with
  | false, false => T (2 * M * k) = Eq
  | false, true => T (2 * M * k) = Gt /\ T ((2 * M + 1) * k) = Lt
  | true, false => T ((2 * M + 1) * k) = Eq
  | true, true => T ((2 * M + 1) * k) = Gt /\ T ((2 * M + 2) * k) = Lt
  end.
Lemma shr_1_split m r s : 0 <= m -> exists b M, m = 2 * M + Z.b2z b /\ 0 <= M /\
  shr_1 {| shr_m := m; shr_r := r; shr_s := s |} = {| shr_m := M; shr_r := b; shr_s := orb r s |}.
Proof.
  intros H. destruct m as [|[p|p|]|p]; [| | | |lia].
  - exists false, 0. now cbn.
  - exists true, (Z.pos p). cbn [Z.b2z shr_1]. repeat split; lia.
  - exists false, (Z.pos p). cbn [Z.b2z shr_1]. repeat split; lia.
  - exists true, 0. now cbn.
Qed.
Lemma inv_step r k : 0 < k -> inv r k -> inv (shr_1 r) (2 * k).
Proof.
  intros K [P I]. destruct r as [m r s]. cbn [shr_m shr_r shr_s] in *.
  destruct (shr_1_split m r s P) as (b & M & E & PM & ->). unfold inv. cbn [shr_m shr_r shr_s].
  split; [assumption|]. subst m.
  destruct b; cbn [Z.b2z] in I; destruct r, s; cbn [orb].
  - destruct I as [A B]. split; [eapply T_gt; [|exact A]; nia|eapply T_lt; [|exact B]; nia].
  - split; [eapply T_eqgt; [|exact I]; nia|eapply T_eqlt; [|exact I]; nia].
  - destruct I as [A B]. split; [eapply T_gt; [|exact A]; nia|eapply T_lt; [|exact B]; nia].
  - rewrite <- I. f_equal. ring.
  - destruct I as [A B]. split; [eapply T_gt; [|exact A]; nia|eapply T_lt; [|exact B]; nia].
  - split; [eapply T_eqgt; [|exact I]; nia|eapply T_eqlt; [|exact I]; nia].
  - destruct I as [A B]. split; [eapply T_gt; [|exact A]; nia|eapply T_lt; [|exact B]; nia].
  - rewrite <- I. f_equal. ring.
Qed.
Lemma inv_iter : forall n r k, 0 < k -> inv r k -> inv (SpecFloat.iter_pos shr_1 n r) (2 ^ Z.pos n * k).
Proof.
  induction n as [n IH|n IH|]; intros r k K I; cbn [SpecFloat.iter_pos].
  - assert (P : 0 < 2 ^ Z.pos n) by (apply Z.pow_pos_nonneg; lia).
    assert (K2 : 0 < 2 * k) by lia. assert (I1 := IH _ _ K2 (inv_step r k K I)).
    assert (K3 : 0 < 2 ^ Z.pos n * (2 * k)) by nia. assert (I2 := IH _ _ K3 I1).
    replace (2 ^ Z.pos n~1 * k) with (2 ^ Z.pos n * (2 ^ Z.pos n * (2 * k))); [exact I2|].
    assert (E : 2 ^ Z.pos n~1 = 2 ^ Z.pos n * 2 ^ Z.pos n * 2 ^ 1) by (rewrite <- !Z.pow_add_r by lia; f_equal; lia).
    rewrite E. ring.
  - assert (P : 0 < 2 ^ Z.pos n) by (apply Z.pow_pos_nonneg; lia).
    assert (K3 : 0 < 2 ^ Z.pos n * k) by nia. assert (I2 := IH _ _ K3 (IH _ _ K I)).
    replace (2 ^ Z.pos n~0 * k) with (2 ^ Z.pos n * (2 ^ Z.pos n * k)); [exact I2|].
    assert (E : 2 ^ Z.pos n~0 = 2 ^ Z.pos n * 2 ^ Z.pos n) by (rewrite <- !Z.pow_add_r by lia; f_equal; lia).
    rewrite E. ring.
  - exact (inv_step r k K I).
Qed.
Lemma inv_shr r e n : inv r 1 -> 0 <= n -> exists r', shr r e n = (r', e + n) /\ inv r' (2 ^ n) /\ (shr_m r' = shr_m r / 2 ^ n).
Proof.
  intros I N. destruct n as [|n|n]; [| |lia].
  - exists r. cbn [shr]. rewrite Z.add_0_r. change (2 ^ 0) with 1. rewrite Z.div_1_r. auto.
  - eexists. cbn [shr]. split; [reflexivity|]. split; [|apply iter_shr_m; apply I].
    rewrite <- (Z.mul_1_r (2 ^ Z.pos n)). now apply inv_iter.
Qed.

(* what is known of the exact value when the rounded one is M times k *)
Definition within (M k : Z) : Prop :=
  T ((2 * M - 1) * k) <> Lt /\ T ((2 * M + 1) * k) <> Gt /\
  (M = 2 ^ 52 -> T (2 * M * k) <> Lt \/ exists h, k = 2 * h /\ T ((4 * M - 1) * h) <> Lt).
Lemma rounded sg q e l : 2 ^ 52 <= q < 2 ^ 200 -> -900 <= e <= 700 -> inv (shr_record_of_loc q l) 1 ->
  exists M E, binary_round_aux prec emax sg q e l = S754_finite sg M E /\ e <= E /\
    2 ^ 52 <= Z.pos M < 2 ^ 53 /\ within (Z.pos M) (2 ^ (E - e)).
Proof.
  intros Q He I. unfold binary_round_aux, shr_fexp.
  destruct q as [|q|q]; [lia| |lia]. cbn [Zdigits2].
  pose proof (digits2_pos_spec q) as [D1 D2]. remember (Z.pos (digits2_pos q)) as d eqn:Ed.
  assert (Hd : 53 <= d <= 200).
  { split.
    - assert (52 < d); [|lia]. apply (Z.pow_lt_mono_r_iff 2); lia.
    - assert (d - 1 < 200); [|lia]. apply (Z.pow_lt_mono_r_iff 2); lia. }
  clear Ed. rewrite fexp_normal by lia. replace (d + e - 53 - e) with (d - 53) by lia.
  destruct (inv_shr _ e (d - 53) I ltac:(lia)) as (r & -> & Ir & Mr).
  assert (B : 2 ^ 52 <= shr_m r < 2 ^ 53).
  { rewrite Mr. assert (shr_m (shr_record_of_loc (Z.pos q) l) = Z.pos q) as -> by (destruct l as [|[]]; reflexivity). split.
    - apply Z.div_le_lower_bound; [apply Z.pow_pos_nonneg; lia|].
      rewrite <- Z.pow_add_r by lia. replace (d - 53 + 52) with (d - 1) by lia. exact D1.
    - apply Z.div_lt_upper_bound; [apply Z.pow_pos_nonneg; lia|].
      rewrite <- Z.pow_add_r by lia. replace (d - 53 + 53) with d by lia. exact D2. }
  set (k := 2 ^ (d - 53)) in *. assert (K : 0 < k) by (apply Z.pow_pos_nonneg; lia).
  set (m := shr_m r) in *.
  remember (round_nearest_even m (loc_of_shr_record r)) as R eqn:ER.
  (* the rounded mantissa before renormalisation *)
  assert (HR : (R = m \/ R = m + 1) /\ T ((2 * R - 1) * k) <> Lt /\ T ((2 * R + 1) * k) <> Gt /\ (R = m -> T (2 * R * k) <> Lt)).
  { destruct Ir as [_ Ir]. fold m in Ir. subst R. destruct r as [m' b s]. cbn [shr_r shr_s loc_of_shr_record] in *.
    assert (G : forall c c', 0 <= c' <= c -> T c <> Lt -> T c' <> Lt).
    { intros c c' C N L. apply N. eapply T_lt; [|exact L]. lia. }
    assert (L : forall c c', 0 <= c <= c' -> T c <> Gt -> T c' <> Gt).
    { intros c c' C N L. apply N. eapply T_gt; [|exact L]. lia. }
    assert (X : forall a c, a = c -> T a = T c) by (intros; congruence).
    destruct b, s; cbn [round_nearest_even].
    - destruct Ir as [A C]. repeat split; try lia.
      + rewrite (X _ ((2 * m + 1) * k)) by lia. congruence.
      + apply (L ((2 * m + 2) * k)); [nia|congruence].
    - destruct (Z.even m); repeat split; try lia.
      + apply (G ((2 * m + 1) * k)); [nia|congruence].
      + congruence.
      + intros _. apply (G ((2 * m + 1) * k)); [nia|congruence].
      + rewrite (X _ ((2 * m + 1) * k)) by lia. congruence.
      + apply (L ((2 * m + 1) * k)); [nia|congruence].
    - destruct Ir as [A C]. repeat split; try lia.
      + apply (G (2 * m * k)); [nia|congruence].
      + congruence.
      + congruence.
    - repeat split; try lia.
      + apply (G (2 * m * k)); [nia|congruence].
      + apply (L (2 * m * k)); [nia|congruence].
      + congruence. }
  destruct HR as (HR & RL & RU & RX). clear ER.
  destruct R as [|R|R]; [lia| |lia]. cbn [Zdigits2].
  destruct (Z.eq_dec (Z.pos R) (2 ^ 53)) as [C|C].
  - assert (DR : Z.pos (digits2_pos R) = 54) by (apply digits2_unique; lia).
    rewrite DR. rewrite fexp_normal by lia. replace (54 + (e + (d - 53)) - 53 - (e + (d - 53))) with 1 by lia.
    cbn [shr SpecFloat.iter_pos shr_record_of_loc].
    assert (RR : R = (Pos.pow 2 53)%positive) by lia. rewrite RR.
    change (shr_m (shr_1 {| shr_m := Z.pos (2 ^ 53); shr_r := false; shr_s := false |})) with (2 ^ 52).
    change (2 ^ 52) with (Z.pos (2 ^ 52)%positive) at 1. cbv iota.
    assert (Zle_bool (e + (d - 53) + 1) (emax - prec) = true) as -> by (unfold emax, prec; lia).
    do 2 eexists. split; [reflexivity|]. split; [lia|].
    replace (e + (d - 53) + 1 - e) with (d - 53 + 1) by lia. rewrite Z.pow_add_r by lia. fold k. change (2 ^ 1) with 2.
    change (Z.pos (2 ^ 52)) with (2 ^ 52). rewrite C in *. split; [lia|]. repeat split.
    + intros L. apply RL. eapply T_lt; [|exact L]. nia.
    + intros L. apply RU. eapply T_gt; [|exact L]. nia.
    + intros _. right. exists k. split; [lia|]. replace (4 * 2 ^ 52 - 1) with (2 * 2 ^ 53 - 1) by reflexivity. assumption.
  - assert (DR : Z.pos (digits2_pos R) = 53) by (apply digits2_unique; lia).
    rewrite DR. rewrite fexp_normal by lia. replace (53 + (e + (d - 53)) - 53 - (e + (d - 53))) with 0 by lia.
    cbn [shr shr_record_of_loc shr_m].
    assert (Zle_bool (e + (d - 53)) (emax - prec) = true) as -> by (unfold emax, prec; lia).
    do 2 eexists. split; [reflexivity|]. split; [lia|].
    replace (e + (d - 53) - e) with (d - 53) by lia. fold k. split; [lia|]. repeat split; try assumption.
    intros E. left. apply RX. lia.
Qed.
End Rounding.

(** ** Which doubles come out *)
Lemma valid_53 s M E : 2 ^ 52 <= Z.pos M < 2 ^ 53 -> -1000 <= E <= 900 -> valid_binary prec emax (S754_finite s M E) = true.
Proof.
  intros B He. assert (D : Z.pos (digits2_pos M) = 53) by (apply digits2_unique; lia).
  unfold valid_binary, bounded, canonical_mantissa. rewrite D, fexp_normal by lia. unfold prec, emax.
  apply andb_true_intro. split; [apply Zeq_is_eq_bool|apply Z.leb_le]; lia.
Qed.
Lemma valid_range s m e : valid_binary prec emax (S754_finite s m e) = true ->
  Z.pos m < 2 ^ 53 /\ -1074 <= e <= 971 /\ 1 <= Z.pos (digits2_pos m) <= 53.
Proof.
  unfold valid_binary, bounded, canonical_mantissa. intros H. apply andb_prop in H. destruct H as [A B].
  apply Zeq_bool_eq in A. apply Z.leb_le in B. unfold fexp, emin, prec, emax in *.
  pose proof (digits2_pos_spec m) as [_ D2].
  assert (2 ^ Z.pos (digits2_pos m) <= 2 ^ 53) by (apply Z.pow_le_mono_r; lia). lia.
Qed.

(** ** Square root *)
Definition Troot (X c : Z) : comparison := 4 * X ?= c * c.
Lemma troot_lt X c c' : 0 <= c <= c' -> Troot X c = Lt -> Troot X c' = Lt.
Proof. unfold Troot. rewrite !Z.compare_lt_iff. nia. Qed.
Lemma troot_gt X c c' : 0 <= c' <= c -> Troot X c = Gt -> Troot X c' = Gt.
Proof. unfold Troot. rewrite !Z.compare_gt_iff. nia. Qed.
Lemma troot_eqlt X c c' : 0 <= c < c' -> Troot X c = Eq -> Troot X c' = Lt.
Proof. unfold Troot. rewrite Z.compare_lt_iff, Z.compare_eq_iff. nia. Qed.
Lemma troot_eqgt X c c' : 0 <= c' < c -> Troot X c = Eq -> Troot X c' = Gt.
Proof. unfold Troot. rewrite Z.compare_gt_iff, Z.compare_eq_iff. nia. Qed.

Lemma sqrt_inv X q r : X = q * q + r -> 0 <= r <= 2 * q ->
  inv (Troot X) (shr_record_of_loc q (if Zeq_bool r 0 then loc_Exact else loc_Inexact (if r <=? q then Lt else Gt))) 1.
Proof.
  intros -> B. unfold inv, Troot. destruct (Zeq_bool r 0) eqn:R0.
  - apply Zeq_bool_eq in R0. subst r. cbn [shr_record_of_loc shr_m shr_r shr_s]. split; [lia|]. apply Z.compare_eq_iff. ring.
  - apply Zeq_bool_neq in R0.
    assert (E0 : 2 * q * 1 * (2 * q * 1) = 4 * (q * q)) by ring.
    assert (E1 : (2 * q + 1) * 1 * ((2 * q + 1) * 1) = 4 * (q * q) + 4 * q + 1) by ring.
    assert (E2 : (2 * q + 2) * 1 * ((2 * q + 2) * 1) = 4 * (q * q) + 8 * q + 4) by ring.
    destruct (r <=? q) eqn:RQ; cbn [shr_record_of_loc shr_m shr_r shr_s]; (split; [lia|]);
      rewrite ?E0, ?E1, ?E2, Z.compare_gt_iff, Z.compare_lt_iff; lia.
Qed.
Lemma sqrt_finite m e : Z.pos m < 2 ^ 53 -> -1074 <= e <= 971 ->
  exists M E w, SFsqrt prec emax (S754_finite false m e) = S754_finite false M E /\
    2 ^ 52 <= Z.pos M < 2 ^ 53 /\ -900 <= w <= E /\ 2 * w <= e - 51 /\ E <= 900 /\
    within (Troot (Z.pos m * 2 ^ (e - 2 * w))) (Z.pos M) (2 ^ (E - w)).
Proof.
  intros Hm He. unfold SFsqrt, SFsqrt_core_binary. cbn [Zdigits2].
  pose proof (digits2_pos_spec m) as [D1 D2]. remember (Z.pos (digits2_pos m)) as d eqn:Ed.
  assert (Hd : 1 <= d <= 53).
  { split; [lia|]. assert (d - 1 < 53); [|lia]. apply (Z.pow_lt_mono_r_iff 2); lia. }
  clear Ed. pose proof (Z.div2_div (d + e + 1)) as HD. pose proof (Z.div2_div e) as HE.
  pose proof (Z.div_mod (d + e + 1) 2 ltac:(lia)). pose proof (Z.mod_pos_bound (d + e + 1) 2 ltac:(lia)).
  pose proof (Z.div_mod e 2 ltac:(lia)). pose proof (Z.mod_pos_bound e 2 ltac:(lia)).
  remember (Z.min (fexp prec emax (Z.div2 (d + e + 1))) (Z.div2 e)) as w eqn:Ew.
  assert (W : w = Z.min (Z.div2 (d + e + 1) - 53) (Z.div2 e)).
  { rewrite Ew. f_equal. unfold fexp, emin, prec, emax. lia. }
  clear Ew. assert (Hs : 0 <= e - 2 * w /\ 105 - d <= e - 2 * w <= 110) by lia.
  remember (e - 2 * w) as s eqn:Es.
  assert (X : match s with 0 => Z.pos m | Z.pos _ => Z.shiftl (Z.pos m) s | Z.neg _ => 0 end = Z.pos m * 2 ^ s).
  { destruct s as [|s|s]; [now rewrite Z.mul_1_r| |lia]. now rewrite Z.shiftl_mul_pow2 by lia. }
  rewrite X. clear X. remember (Z.pos m * 2 ^ s) as X eqn:EX.
  assert (P : 0 < 2 ^ s) by (apply Z.pow_pos_nonneg; lia).
  assert (BX : 2 ^ 104 <= X < 2 ^ 163).
  { split.
    - rewrite EX. transitivity (2 ^ (d - 1) * 2 ^ s); [|apply Z.mul_le_mono_nonneg_r; lia]. rewrite <- Z.pow_add_r by lia. apply Z.pow_le_mono_r; lia.
    - apply Z.lt_le_trans with (2 ^ 53 * 2 ^ s); [rewrite EX; apply Z.mul_lt_mono_pos_r; lia|]. rewrite <- Z.pow_add_r by lia. apply Z.pow_le_mono_r; lia. }
  pose proof (Z.sqrtrem_spec X ltac:(lia)) as SR. destruct (Z.sqrtrem X) as [q r]. destruct SR as [SQ SB].
  set (l := if Zeq_bool r 0 then loc_Exact else loc_Inexact (if r <=? q then Lt else Gt)).
  assert (Bq : 2 ^ 52 <= q < 2 ^ 200).
  { assert (Q0 : 0 <= q) by lia. split.
    - destruct (Z.le_gt_cases (2 ^ 52) q) as [G|G]; [assumption|exfalso].
      assert (Y : (q + 1) * (q + 1) <= 2 ^ 52 * 2 ^ 52) by (apply Z.mul_le_mono_nonneg; lia).
      change (2 ^ 52 * 2 ^ 52) with (2 ^ 104) in Y. lia.
    - destruct (Z.le_gt_cases (2 ^ 200) q) as [G|G]; [exfalso|assumption].
      assert (Y : 2 ^ 200 * 2 ^ 200 <= q * q) by (apply Z.mul_le_mono_nonneg; lia).
      assert (2 ^ 163 < 2 ^ 200 * 2 ^ 200) by reflexivity. lia. }
  assert (I : inv (Troot X) (shr_record_of_loc q l) 1) by exact (sqrt_inv X q r SQ SB).
  assert (Hw : -900 <= w <= 700) by lia.
  destruct (rounded (Troot X) (troot_lt X) (troot_gt X) (troot_eqlt X) (troot_eqgt X) false q w l Bq Hw I) as (M & E & R & LE & BM & Wi).
  exists M, E, w. split; [exact R|]. split; [lia|]. split; [lia|]. split; [lia|]. split; [|rewrite <- Es, <- EX; assumption].
  (* not too large: 2 * M * 2^(E-w) <= about 2 * 2^82 *)
  destruct Wi as [W1 _]. unfold Troot in W1. rewrite Z.compare_lt_iff in W1.
  destruct (Z.le_gt_cases E 900) as [G|G]; [assumption|exfalso]. apply W1.
  assert (K : 2 ^ 200 <= 2 ^ (E - w)) by (apply Z.pow_le_mono_r; lia). remember (2 ^ (E - w)) as k eqn:Ek.
  assert (C : 1 * 2 ^ 200 <= (2 * Z.pos M - 1) * k) by (apply Z.mul_le_mono_nonneg; lia). rewrite Z.mul_1_l in C.
  assert (Y : 2 ^ 200 * 2 ^ 200 <= (2 * Z.pos M - 1) * k * ((2 * Z.pos M - 1) * k)) by (apply Z.mul_le_mono_nonneg; lia).
  assert (4 * 2 ^ 163 < 2 ^ 200 * 2 ^ 200) by reflexivity. lia.
Qed.

(** ** Integers and ratios as doubles *)
Definition Tint (X c : Z) : comparison := 2 * X ?= c.
Lemma tint_lt X c c' : 0 <= c <= c' -> Tint X c = Lt -> Tint X c' = Lt.
Proof. unfold Tint. rewrite !Z.compare_lt_iff. lia. Qed.
Lemma tint_gt X c c' : 0 <= c' <= c -> Tint X c = Gt -> Tint X c' = Gt.
Proof. unfold Tint. rewrite !Z.compare_gt_iff. lia. Qed.
Lemma tint_eqlt X c c' : 0 <= c < c' -> Tint X c = Eq -> Tint X c' = Lt.
Proof. unfold Tint. rewrite Z.compare_lt_iff, Z.compare_eq_iff. lia. Qed.
Lemma tint_eqgt X c c' : 0 <= c' < c -> Tint X c = Eq -> Tint X c' = Gt.
Proof. unfold Tint. rewrite Z.compare_gt_iff, Z.compare_eq_iff. lia. Qed.

Lemma round_int s p : 2 ^ 53 <= Z.pos p < 2 ^ 64 -> exists M E, binary_round prec emax s p 0 = S754_finite s M E /\ 0 <= E <= 20 /\
  2 ^ 52 <= Z.pos M < 2 ^ 53 /\ within (Tint (Z.pos p)) (Z.pos M) (2 ^ E).
Proof.
  intros Hp. pose proof (digits2_pos_spec p) as [D1 D2]. unfold binary_round.
  remember (Z.pos (digits2_pos p)) as d eqn:Ed.
  assert (Hd : 53 < d <= 64).
  { split.
    - apply (Z.pow_lt_mono_r_iff 2); lia.
    - assert (d - 1 < 64); [|lia]. apply (Z.pow_lt_mono_r_iff 2); lia. }
  rewrite fexp_normal by lia. unfold shl_align. replace (d + 0 - 53 - 0) with (d - 53) by lia.
  destruct (d - 53) as [|w|w] eqn:Ew; [lia| |lia].
  assert (I : inv (Tint (Z.pos p)) (shr_record_of_loc (Z.pos p) loc_Exact) 1).
  { unfold inv, Tint. cbn [shr_record_of_loc shr_m shr_r shr_s]. split; [lia|]. apply Z.compare_eq_iff. lia. }
  assert (B : 2 ^ 52 <= Z.pos p < 2 ^ 200) by lia. assert (B0 : -900 <= 0 <= 700) by lia.
  destruct (rounded _ (tint_lt (Z.pos p)) (tint_gt _) (tint_eqlt _) (tint_eqgt _) s (Z.pos p) 0 loc_Exact B B0 I)
    as (M & E & R & LE & BM & Wi).
  rewrite Z.sub_0_r in Wi. exists M, E. split; [exact R|]. split; [|split; assumption]. split; [assumption|].
  destruct Wi as [W1 _]. unfold Tint in W1. rewrite Z.compare_lt_iff in W1.
  destruct (Z.le_gt_cases E 20) as [G|G]; [assumption|exfalso]. apply W1.
  assert (K : 2 ^ 20 <= 2 ^ E) by (apply Z.pow_le_mono_r; lia).
  assert (Y : (2 * 2 ^ 52 - 1) * 2 ^ 20 <= (2 * Z.pos M - 1) * 2 ^ E) by (apply Z.mul_le_mono_nonneg; lia).
  assert (2 * 2 ^ 64 < (2 * 2 ^ 52 - 1) * 2 ^ 20) by reflexivity. lia.
Qed.
Lemma int_shape z : in64 z = true -> z <> 0 -> exists M E, d_of_Z z = S754_finite (z <? 0) M E /\ 2 ^ 52 <= Z.pos M < 2 ^ 53 /\ -53 <= E <= 20.
Proof.
  intros Hi N. unfold in64, i64_min, i64_max in Hi. destruct (Z_lt_ge_dec (Z.abs z) (2 ^ 53)) as [S|S].
  - destruct (d_of_Z_small z S N) as (m & e & -> & He & D & _). exists m, e. split; [reflexivity|].
    pose proof (digits2_pos_spec m) as X. rewrite D in X. change (53 - 1) with 52 in X. lia.
  - destruct z as [|p|p]; [lia| |].
    + destruct (round_int false p ltac:(lia)) as (M & E & R & HE & B & _). exists M, E. split; [exact R|lia].
    + destruct (round_int true p ltac:(lia)) as (M & E & R & HE & B & _). exists M, E. split; [exact R|lia].
Qed.

Definition Tdiv (X Y c : Z) : comparison := 2 * X ?= c * Y.
Lemma div_inv X Y q r : 0 < Y -> X = Y * q + r -> 0 <= r < Y -> 0 <= q -> inv (Tdiv X Y) (shr_record_of_loc q (new_location Y r)) 1.
Proof.
  intros HY -> B Q. unfold new_location, new_location_even, new_location_odd.
  assert (E0 : 2 * q * 1 * Y = 2 * (Y * q)) by ring.
  assert (E1 : (2 * q + 1) * 1 * Y = 2 * (Y * q) + Y) by ring.
  assert (E2 : (2 * q + 2) * 1 * Y = 2 * (Y * q) + 2 * Y) by ring.
  assert (Z0 : forall l, r = 0 -> l = loc_Exact -> inv (Tdiv (Y * q + r) Y) (shr_record_of_loc q l) 1).
  { intros l -> ->. unfold inv, Tdiv. cbn [shr_record_of_loc shr_m shr_r shr_s]. split; [assumption|]. rewrite E0. apply Z.compare_eq_iff. lia. }
  destruct (Zeq_bool r 0) eqn:R0.
  { apply Zeq_bool_eq in R0. apply (Z0 _ R0). subst r. destruct (Z.even Y); reflexivity. }
  unfold inv, Tdiv. destruct (Z.even Y) eqn:P; rewrite R0; apply Zeq_bool_neq in R0.
  - destruct (Z.compare_spec (2 * r) Y); cbn [shr_record_of_loc shr_m shr_r shr_s]; (split; [assumption|]);
      rewrite ?E0, ?E1, ?E2, ?Z.compare_gt_iff, ?Z.compare_lt_iff, ?Z.compare_eq_iff; lia.
  - assert (Odd : 2 * r <> Y).
    { intros X. rewrite <- X, Z.even_mul in P. discriminate. }
    destruct (Z.compare_spec (2 * r + 1) Y); cbn [shr_record_of_loc shr_m shr_r shr_s]; (split; [assumption|]);
      rewrite ?E0, ?E1, ?E2, ?Z.compare_gt_iff, ?Z.compare_lt_iff, ?Z.compare_eq_iff; lia.
Qed.
Lemma tdiv_lt X Y c c' : 0 < Y -> 0 <= c <= c' -> Tdiv X Y c = Lt -> Tdiv X Y c' = Lt.
Proof. unfold Tdiv. rewrite !Z.compare_lt_iff. nia. Qed.
Lemma tdiv_gt X Y c c' : 0 < Y -> 0 <= c' <= c -> Tdiv X Y c = Gt -> Tdiv X Y c' = Gt.
Proof. unfold Tdiv. rewrite !Z.compare_gt_iff. nia. Qed.
Lemma tdiv_eqlt X Y c c' : 0 < Y -> 0 <= c < c' -> Tdiv X Y c = Eq -> Tdiv X Y c' = Lt.
Proof. unfold Tdiv. rewrite Z.compare_lt_iff, Z.compare_eq_iff. nia. Qed.
Lemma tdiv_eqgt X Y c c' : 0 < Y -> 0 <= c' < c -> Tdiv X Y c = Eq -> Tdiv X Y c' = Gt.
Proof. unfold Tdiv. rewrite Z.compare_gt_iff, Z.compare_eq_iff. nia. Qed.

Lemma div_shape s1 m1 e1 s2 m2 e2 : 2 ^ 52 <= Z.pos m1 < 2 ^ 53 -> 2 ^ 52 <= Z.pos m2 < 2 ^ 53 -> -53 <= e1 <= 20 -> -53 <= e2 <= 20 ->
  exists M E, SFdiv prec emax (S754_finite s1 m1 e1) (S754_finite s2 m2 e2) = S754_finite (xorb s1 s2) M E /\
    2 ^ 52 <= Z.pos M < 2 ^ 53 /\ -300 <= E <= 300.
Proof.
  intros B1 B2 R1 R2. unfold SFdiv, SFdiv_core_binary. cbn [Zdigits2].
  assert (Z.pos (digits2_pos m1) = 53) as -> by (apply digits2_unique; lia).
  assert (Z.pos (digits2_pos m2) = 53) as -> by (apply digits2_unique; lia).
  assert (Z.min (fexp prec emax (53 + e1 - (53 + e2))) (e1 - e2) = e1 - e2 - 53) as -> by (unfold fexp, emin, prec, emax; lia).
  replace (e1 - e2 - (e1 - e2 - 53)) with 53 by lia. cbv iota. rewrite Z.shiftl_mul_pow2 by lia.
  remember (Z.pos m1 * 2 ^ 53) as X eqn:EX. 
  assert (P : Z.pos m2 > 0) by lia. pose proof (Z_div_mod X (Z.pos m2) P) as DM. clear P. destruct (Z.div_eucl X (Z.pos m2)) as [q r]. destruct DM as [DQ DR].
  assert (Q1 : 0 <= q).
  { destruct (Z.le_gt_cases 0 q) as [G|G]; [assumption|exfalso]. assert (Z.pos m2 * (q + 1) <= 0) by (apply Z.mul_nonneg_nonpos; lia). lia. }
  assert (Bq : 2 ^ 52 <= q < 2 ^ 200).
  { split.
    - destruct (Z.le_gt_cases (2 ^ 52) q) as [G|G]; [assumption|exfalso].
      assert (Y : Z.pos m2 * (q + 1) <= 2 ^ 53 * 2 ^ 52) by (apply Z.mul_le_mono_nonneg; lia).
      assert (2 ^ 52 * 2 ^ 53 <= X) by (rewrite EX; apply Z.mul_le_mono_nonneg_r; lia). lia.
    - destruct (Z.le_gt_cases (2 ^ 200) q) as [G|G]; [exfalso|assumption].
      assert (Y : 1 * 2 ^ 200 <= Z.pos m2 * q) by (apply Z.mul_le_mono_nonneg; lia).
      assert (X < 2 ^ 53 * 2 ^ 53) by (rewrite EX; apply Z.mul_lt_mono_pos_r; lia).
      assert (2 ^ 53 * 2 ^ 53 < 1 * 2 ^ 200) by reflexivity. lia. }
  assert (P : 0 < Z.pos m2) by lia. assert (Q0 : 0 <= q) by lia.
  assert (Be : -900 <= e1 - e2 - 53 <= 700) by lia.
  assert (I := div_inv X (Z.pos m2) q r P DQ DR Q0).
  destruct (rounded (Tdiv X (Z.pos m2)) (fun c c' => tdiv_lt X _ c c' P) (fun c c' => tdiv_gt X _ c c' P)
    (fun c c' => tdiv_eqlt X _ c c' P) (fun c c' => tdiv_eqgt X _ c c' P) (xorb s1 s2) q (e1 - e2 - 53) _ Bq Be I) as (M & E & R & LE & BM & Wi).
  exists M, E. split; [exact R|]. split; [lia|]. split; [lia|].
  destruct Wi as [W1 _]. unfold Tdiv in W1. rewrite Z.compare_lt_iff in W1.
  destruct (Z.le_gt_cases E 300) as [G|G]; [assumption|exfalso]. apply W1.
  assert (K : 2 ^ 150 <= 2 ^ (E - (e1 - e2 - 53))) by (apply Z.pow_le_mono_r; lia).
  remember (2 ^ (E - (e1 - e2 - 53))) as k eqn:Ek.
  assert (C : 1 * 2 ^ 150 <= (2 * Z.pos M - 1) * k) by (apply Z.mul_le_mono_nonneg; lia).
  assert (Y : 1 * 2 ^ 150 * 1 <= (2 * Z.pos M - 1) * k * Z.pos m2) by (apply Z.mul_le_mono_nonneg; lia).
  assert (X < 2 ^ 53 * 2 ^ 53) by (rewrite EX; apply Z.mul_lt_mono_pos_r; lia).
  assert (2 * (2 ^ 53 * 2 ^ 53) < 1 * 2 ^ 150 * 1) by reflexivity. lia.
Qed.
