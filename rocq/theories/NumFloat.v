(** Facts about (double)int64 conversions as used by the numeric predicates
    and max/min. *)
From Coq Require Import SpecFloat Lia ZifyBool Zpow_facts.
From Verif Require Import Base NumModel NumSpec NumProofs.

Lemma digits2_pos_spec p : 2 ^ (Z.pos (digits2_pos p) - 1) <= Z.pos p < 2 ^ Z.pos (digits2_pos p).
Proof.
  induction p as [p IH|p IH|]; cbn [digits2_pos].
  - rewrite Pos2Z.inj_succ. unfold Z.succ.
    replace (Z.pos (digits2_pos p) + 1 - 1) with (Z.succ (Z.pos (digits2_pos p) - 1)) by lia.
    rewrite Z.pow_succ_r by lia. rewrite (Z.pow_add_r 2 _ 1) by lia. lia.
  - rewrite Pos2Z.inj_succ. unfold Z.succ.
    replace (Z.pos (digits2_pos p) + 1 - 1) with (Z.succ (Z.pos (digits2_pos p) - 1)) by lia.
    rewrite Z.pow_succ_r by lia. rewrite (Z.pow_add_r 2 _ 1) by lia. lia.
  - cbn. lia.
Qed.
Lemma digits2_unique p k : 0 < k -> 2 ^ (k - 1) <= Z.pos p < 2 ^ k -> Z.pos (digits2_pos p) = k.
Proof.
  intros Hk [H1 H2]. pose proof (digits2_pos_spec p) as [D1 D2].
  assert (k - 1 < Z.pos (digits2_pos p)) by (apply (Z.pow_lt_mono_r_iff 2); lia).
  assert (Z.pos (digits2_pos p) - 1 < k) by (apply (Z.pow_lt_mono_r_iff 2); lia).
  lia.
Qed.

Lemma shift_pos_Z d p : Z.pos (shift_pos d p) = Z.pos p * 2 ^ Z.pos d.
Proof. rewrite shift_pos_correct. apply Z.mul_comm. Qed.

Lemma fexp_normal d e : -1000 < d + e -> fexp prec emax (d + e) = d + e - 53.
Proof. unfold fexp, emin, prec, emax. lia. Qed.

(* rounding a 53-digit mantissa at its own exponent is the identity *)
Lemma round_aux_id s m e : Z.pos (digits2_pos m) = 53 -> -1000 < e <= 900 ->
  binary_round_aux prec emax s (Z.pos m) e loc_Exact = S754_finite s m e.
Proof.
  intros Hd He. unfold binary_round_aux, shr_fexp. cbn [Zdigits2].
  rewrite Hd. rewrite fexp_normal by lia.
  replace (53 + e - 53 - e) with 0 by lia.
  cbn [shr shr_record_of_loc shr_m loc_of_shr_record round_nearest_even].
  cbn [Zdigits2]. rewrite Hd. rewrite fexp_normal by lia.
  replace (53 + e - 53 - e) with 0 by lia. cbn [shr shr_m].
  assert (Zle_bool e (emax - prec) = true) as -> by (unfold emax, prec; lia).
  reflexivity.
Qed.

(** Exact conversion: a positive integer below 2^53 becomes the double whose
    mantissa is the integer shifted to 53 bits. *)
Lemma d_of_pos_exact p : Z.pos p < 2 ^ 53 -> forall s,
  exists m e, binary_round prec emax s p 0 = S754_finite s m e
    /\ -53 <= e <= 0 /\ Z.pos (digits2_pos m) = 53 /\ Z.pos m = Z.pos p * 2 ^ (- e).
Proof.
  intros Hp s. pose proof (digits2_pos_spec p) as [D1 D2].
  set (d := Z.pos (digits2_pos p)) in *.
  assert (Hd : 1 <= d <= 53).
  { split; [unfold d; lia|].
    assert (d - 1 < 53) by (apply (Z.pow_lt_mono_r_iff 2); lia). lia. }
  unfold binary_round. fold d. rewrite fexp_normal by lia.
  unfold shl_align. replace (d + 0 - 53 - 0) with (d - 53) by lia.
  destruct (d - 53) as [|q|q] eqn:E; [|lia|].
  - exists p, 0. rewrite round_aux_id by (fold d; lia).
    repeat split; fold d; lia.
  - exists (shift_pos q p), (d + 0 - 53).
    assert (Hq : Z.pos q = 53 - d) by lia.
    assert (Hm : Z.pos (shift_pos q p) = Z.pos p * 2 ^ (53 - d)) by (rewrite shift_pos_Z, Hq; reflexivity).
    assert (Hdm : Z.pos (digits2_pos (shift_pos q p)) = 53).
    { apply digits2_unique; [lia|]. rewrite Hm. split.
      - replace (53 - 1) with ((d - 1) + (53 - d)) by lia. rewrite Z.pow_add_r by lia.
        apply Z.mul_le_mono_nonneg_r; [apply Z.pow_nonneg; lia|exact D1].
      - replace 53 with (d + (53 - d)) at 2 by lia. rewrite Z.pow_add_r by lia.
        apply Z.mul_lt_mono_pos_r; [apply Z.pow_pos_nonneg; lia|exact D2]. }
    replace (Z.neg q) with (d + 0 - 53) by lia.
    rewrite round_aux_id by (exact Hdm || lia).
    repeat split; try lia. rewrite Hm. f_equal. f_equal. lia.
Qed.


Lemma d_of_Z_small z : small z -> z <> 0 ->
  exists m e, d_of_Z z = S754_finite (z <? 0) m e
    /\ -53 <= e <= 0 /\ Z.pos (digits2_pos m) = 53 /\ Z.pos m = Z.abs z * 2 ^ (- e).
Proof.
  unfold small. intros Hs Hz. destruct z as [|p|p]; [lia| |].
  - destruct (d_of_pos_exact p Hs false) as (m & e & H). exists m, e. exact H.
  - destruct (d_of_pos_exact p Hs true) as (m & e & H). exists m, e. exact H.
Qed.

Lemma canonical_cmp m1 e1 m2 e2 x y :
  Z.pos (digits2_pos m1) = 53 -> Z.pos (digits2_pos m2) = 53 ->
  -53 <= e1 <= 0 -> -53 <= e2 <= 0 ->
  Z.pos m1 = x * 2 ^ (- e1) -> Z.pos m2 = y * 2 ^ (- e2) ->
  match Z.compare e1 e2 with Lt => Lt | Gt => Gt | Eq => Pos.compare_cont Eq m1 m2 end = (x ?= y).
Proof.
  intros D1 D2 E1 E2 M1 M2.
  pose proof (digits2_pos_spec m1) as [B1 B1']. pose proof (digits2_pos_spec m2) as [B2 B2'].
  rewrite D1 in *. rewrite D2 in *.
  assert (P1 : 0 < 2 ^ (- e1)) by (apply Z.pow_pos_nonneg; lia).
  assert (P2 : 0 < 2 ^ (- e2)) by (apply Z.pow_pos_nonneg; lia).
  destruct (Z.compare_spec e1 e2) as [E|E|E].
  - subst e2. change (Pos.compare_cont Eq m1 m2) with (Pos.compare m1 m2).
    change (Pos.compare m1 m2) with (Z.pos m1 ?= Z.pos m2). rewrite M1, M2.
    symmetry. apply Zmult_compare_compat_r. lia.
  - symmetry. apply Z.compare_lt_iff.
    assert (2 ^ (- e1) = 2 ^ (- e2) * 2 ^ (e2 - e1)) as Hp.
    { rewrite <- Z.pow_add_r by lia. f_equal. lia. }
    assert (2 <= 2 ^ (e2 - e1)) as Hp2.
    { change 2 with (2 ^ 1) at 1. apply Z.pow_le_mono_r; lia. }
    assert (Hx : Z.pos m1 = (x * 2 ^ (e2 - e1)) * 2 ^ (- e2)) by (rewrite M1, Hp; ring).
    assert (2 ^ 53 = 2 * 2 ^ 52) as H53 by reflexivity.
    change (53 - 1) with 52 in *.
    assert (x * 2 ^ (e2 - e1) < 2 * y) by nia.
    assert (0 < x) by nia. nia.
  - symmetry. apply Z.compare_gt_iff.
    assert (2 ^ (- e2) = 2 ^ (- e1) * 2 ^ (e1 - e2)) as Hp.
    { rewrite <- Z.pow_add_r by lia. f_equal. lia. }
    assert (2 <= 2 ^ (e1 - e2)) as Hp2.
    { change 2 with (2 ^ 1) at 1. apply Z.pow_le_mono_r; lia. }
    assert (Hy : Z.pos m2 = (y * 2 ^ (e1 - e2)) * 2 ^ (- e1)) by (rewrite M2, Hp; ring).
    assert (2 ^ 53 = 2 * 2 ^ 52) as H53 by reflexivity.
    change (53 - 1) with 52 in *.
    assert (y * 2 ^ (e1 - e2) < 2 * x) by nia.
    assert (0 < y) by nia. nia.
Qed.

Lemma d_cmp_small x y : small x -> small y -> SFcompare (d_of_Z x) (d_of_Z y) = Some (x ?= y).
Proof.
  intros Hx Hy.
  destruct (Z.eq_dec x 0) as [->|Nx].
  { destruct (Z.eq_dec y 0) as [->|Ny]; [reflexivity|].
    destruct (d_of_Z_small y Hy Ny) as (m & e & -> & _).
    change (d_of_Z 0) with (S754_zero false). cbn [SFcompare].
    f_equal. destruct (y <? 0) eqn:E; symmetry; [apply Z.compare_gt_iff|apply Z.compare_lt_iff]; lia. }
  destruct (d_of_Z_small x Hx Nx) as (m1 & e1 & -> & E1 & D1 & M1).
  destruct (Z.eq_dec y 0) as [->|Ny].
  { change (d_of_Z 0) with (S754_zero false). cbn [SFcompare]. f_equal.
    destruct (x <? 0) eqn:E; symmetry; [apply Z.compare_lt_iff|apply Z.compare_gt_iff]; lia. }
  destruct (d_of_Z_small y Hy Ny) as (m2 & e2 & -> & E2 & D2 & M2).
  cbn [SFcompare]. f_equal.
  pose proof (canonical_cmp m1 e1 m2 e2 (Z.abs x) (Z.abs y) D1 D2 E1 E2 M1 M2) as C.
  destruct (x <? 0) eqn:Sx; destruct (y <? 0) eqn:Sy.
  - destruct (e1 ?= e2); symmetry in C.
    + rewrite <- C. rewrite <- Z.compare_antisym.
      replace (Z.abs x) with (- x) by lia. replace (Z.abs y) with (- y) by lia.
      rewrite Z.compare_opp. f_equal; lia.
    + rewrite Z.compare_lt_iff in C. symmetry. apply Z.compare_gt_iff. lia.
    + rewrite Z.compare_gt_iff in C. symmetry. apply Z.compare_lt_iff. lia.
  - symmetry. apply Z.compare_lt_iff. lia.
  - symmetry. apply Z.compare_gt_iff. lia.
  - rewrite !Z.abs_eq in C by lia. destruct (e1 ?= e2); exact C.
Qed.

Lemma Z_of_d_small z : small z -> Z_of_d (d_of_Z z) = Ok z.
Proof.
  intros Hs. destruct (Z.eq_dec z 0) as [->|Nz]; [reflexivity|].
  destruct (d_of_Z_small z Hs Nz) as (m & e & -> & E & D & M).
  unfold Z_of_d, dtrunc.
  assert (P : 0 < 2 ^ (- e)) by (apply Z.pow_pos_nonneg; lia).
  assert (H : (if 0 <=? e then Z.pos m * 2 ^ e else Z.pos m / 2 ^ (- e)) = Z.abs z).
  { destruct (0 <=? e) eqn:Ee.
    - assert (e = 0) by lia. subst e. rewrite M. cbn. lia.
    - rewrite M. apply Z.div_mul. lia. }
  rewrite H. unfold small in Hs.
  destruct (z <? 0) eqn:Sz; rewrite i64_ok; try (f_equal; lia);
    unfold in64, i64_min, i64_max; lia.
Qed.

(** ** Sign is preserved for every int64 (rounding never crosses zero) *)
Lemma shr_1_m r : 0 <= shr_m r -> shr_m (shr_1 r) = shr_m r / 2.
Proof.
  destruct r as [m rr s]. cbn [shr_m]. intros H. unfold shr_1.
  destruct m as [|p|p]; [reflexivity| |lia].
  destruct p as [p|p|]; cbn [shr_m].
  - change (Z.pos p~1) with (2 * Z.pos p + 1).
    apply (Z.div_unique _ 2 _ 1); lia.
  - change (Z.pos p~0) with (2 * Z.pos p). apply (Z.div_unique _ 2 _ 0); lia.
  - reflexivity.
Qed.
Lemma iter_shr_m : forall n r, 0 <= shr_m r -> shr_m (SpecFloat.iter_pos shr_1 n r) = shr_m r / 2 ^ Z.pos n.
Proof.
  induction n as [n IH|n IH|]; intros r H; cbn [SpecFloat.iter_pos].
  - assert (H1 : 0 <= shr_m (shr_1 r)) by (rewrite shr_1_m by lia; apply Z.div_pos; lia).
    assert (H2 : 0 <= shr_m (SpecFloat.iter_pos shr_1 n (shr_1 r))).
    { rewrite IH by lia. apply Z.div_pos; [lia|apply Z.pow_pos_nonneg; lia]. }
    rewrite IH by lia. rewrite IH by lia. rewrite shr_1_m by lia.
    rewrite !Z.div_div by (try apply Z.pow_pos_nonneg; lia). f_equal.
    rewrite Pos2Z.inj_xI. replace (2 * Z.pos n + 1) with (Z.pos n + Z.pos n + 1) by lia.
    rewrite !Z.pow_add_r by lia. ring.
  - assert (H2 : 0 <= shr_m (SpecFloat.iter_pos shr_1 n r)).
    { rewrite IH by lia. apply Z.div_pos; [lia|apply Z.pow_pos_nonneg; lia]. }
    rewrite IH by lia. rewrite IH by lia.
    rewrite Z.div_div by (try apply Z.pow_pos_nonneg; lia). f_equal.
    rewrite <- Z.pow_add_r by lia. f_equal. lia.
  - rewrite shr_1_m by lia. reflexivity.
Qed.

Lemma binary_round_sign s p : Z.pos p < 2 ^ 64 ->
  exists m e, binary_round prec emax s p 0 = S754_finite s m e.
Proof.
  intros Hp.
  destruct (Z_lt_ge_dec (Z.pos p) (2 ^ 53)) as [Hs|Hs].
  { destruct (d_of_pos_exact p Hs s) as (m & e & H & _). eauto. }
  pose proof (digits2_pos_spec p) as [D1 D2].
  set (d := Z.pos (digits2_pos p)) in *.
  assert (Hd1 : 53 < d) by (apply (Z.pow_lt_mono_r_iff 2); lia).
  assert (Hd2 : d - 1 < 64) by (apply (Z.pow_lt_mono_r_iff 2); lia).
  unfold binary_round. fold d. rewrite fexp_normal by lia.
  unfold shl_align. replace (d + 0 - 53 - 0) with (d - 53) by lia.
  destruct (d - 53) as [|q|q] eqn:E; [lia| |lia].
  set (mrs := SpecFloat.iter_pos shr_1 q {| shr_m := Z.pos p; shr_r := false; shr_s := false |}).
  assert (F : shr_fexp prec emax (Z.pos p) 0 loc_Exact = (mrs, 0 + Z.pos q)).
  { unfold shr_fexp. cbn [Zdigits2]. fold d. rewrite fexp_normal by lia.
    replace (d + 0 - 53 - 0) with (d - 53) by lia. rewrite E. reflexivity. }
  unfold binary_round_aux. rewrite F.
  assert (HM : shr_m mrs = Z.pos p / 2 ^ (d - 53)).
  { unfold mrs. rewrite iter_shr_m by (cbn; lia). cbn [shr_m]. rewrite E. reflexivity. }
  assert (HM1 : 2 ^ 52 <= shr_m mrs < 2 ^ 53).
  { rewrite HM. split.
    - apply Z.div_le_lower_bound; [apply Z.pow_pos_nonneg; lia|].
      rewrite <- Z.pow_add_r by lia. replace (d - 53 + 52) with (d - 1) by lia. exact D1.
    - apply Z.div_lt_upper_bound; [apply Z.pow_pos_nonneg; lia|].
      rewrite <- Z.pow_add_r by lia. replace (d - 53 + 53) with d by lia. exact D2. }
  set (R := round_nearest_even (shr_m mrs) (loc_of_shr_record mrs)).
  assert (HR : 2 ^ 52 <= R <= 2 ^ 53).
  { unfold R, round_nearest_even. destruct (loc_of_shr_record mrs) as [|[]]; try lia.
    destruct (Z.even (shr_m mrs)); lia. }
  unfold shr_fexp. destruct R as [|r|r]; [lia| |lia]. cbn [Zdigits2].
  rewrite fexp_normal by lia.
  pose proof (digits2_pos_spec r) as [R1 R2].
  set (dr := Z.pos (digits2_pos r)) in *.
  assert (Hr1 : 52 < dr) by (apply (Z.pow_lt_mono_r_iff 2); lia).
  assert (Hr2 : dr - 1 < 54) by (apply (Z.pow_lt_mono_r_iff 2); lia).
  replace (dr + (0 + Z.pos q) - 53 - (0 + Z.pos q)) with (dr - 53) by lia.
  assert (Hrr : dr = 53 \/ dr = 54) by lia.
  destruct Hrr as [->| ->]; cbn [shr_record_of_loc].
  - change (53 - 53) with 0. cbn [shr shr_m].
    assert (Zle_bool (0 + Z.pos q) (emax - prec) = true) as -> by (unfold emax, prec; lia). eauto.
  - change (54 - 53) with 1. cbn [shr].
    cbn [SpecFloat.iter_pos].
    assert (H2 : shr_m (shr_1 {| shr_m := Z.pos r; shr_r := false; shr_s := false |}) = Z.pos r / 2)
      by (apply shr_1_m; cbn; lia).
    rewrite H2.
    assert (0 < Z.pos r / 2) by (apply Z.div_str_pos; lia).
    destruct (Z.pos r / 2) as [|w|w]; [lia| |lia].
    assert (Zle_bool (0 + Z.pos q + 1) (emax - prec) = true) as -> by (unfold emax, prec; lia). eauto.
Qed.

Lemma d_of_Z_sign z : in64 z = true -> z <> 0 -> exists m e, d_of_Z z = S754_finite (z <? 0) m e.
Proof.
  intros Hi Hz. unfold in64, i64_min, i64_max in Hi. destruct z as [|p|p]; [lia| |];
    apply binary_round_sign; lia.
Qed.

(** ** Predicates *)
Lemma zero_exact z : in64 z = true -> is_zero (VInt z) = Ok (VBool (z =? 0)).
Proof.
  intros Hi. unfold is_zero. cbn [is_num orb to_double]. do 2 f_equal.
  destruct (Z.eq_dec z 0) as [->|Nz]; [reflexivity|].
  destruct (d_of_Z_sign z Hi Nz) as (m & e & ->).
  unfold deq, dzero. cbn [SFcompare]. destruct (z <? 0); lia.
Qed.
Lemma positive_exact z : in64 z = true -> is_positive (VInt z) = Ok (VBool (0 <? z)).
Proof.
  intros Hi. unfold is_positive. cbn [is_num orb to_double]. do 2 f_equal.
  destruct (Z.eq_dec z 0) as [->|Nz]; [reflexivity|].
  destruct (d_of_Z_sign z Hi Nz) as (m & e & ->).
  unfold dgt, dzero. cbn [SFcompare]. destruct (z <? 0) eqn:E; lia.
Qed.
Lemma negative_exact z : in64 z = true -> is_negative (VInt z) = Ok (VBool (z <? 0)).
Proof.
  intros Hi. unfold is_negative. cbn [is_num orb to_double]. do 2 f_equal.
  destruct (Z.eq_dec z 0) as [->|Nz]; [reflexivity|].
  destruct (d_of_Z_sign z Hi Nz) as (m & e & ->).
  unfold dlt, dzero. cbn [SFcompare]. destruct (z <? 0) eqn:E; lia.
Qed.

Lemma integral_small z : small z -> integral (d_of_Z z) = Ok z.
Proof.
  intros H. unfold integral. rewrite Z_of_d_small by exact H. cbn [bind].
  unfold deq. rewrite d_cmp_small by exact H. rewrite Z.compare_refl. reflexivity.
Qed.
Lemma rem2_odd z : negb (Z.rem z 2 =? 0) = Z.odd z.
Proof.
  rewrite <- Z.negb_even. f_equal.
  destruct (Z.even z) eqn:E.
  - apply Z.even_spec in E as [k ->]. rewrite Z.mul_comm, Z.rem_mul by lia. reflexivity.
  - assert (Z.odd z = true) as O by (rewrite <- Z.negb_even, E; reflexivity).
    apply Z.odd_spec in O as [k ->].
    apply Z.eqb_neq. intros H. apply Z.rem_divide in H; [|lia]. destruct H as [q Hq]. lia.
Qed.
Lemma odd_small z : small z -> is_odd (VInt z) = Ok (VBool (Z.odd z)).
Proof.
  intros H. unfold is_odd. cbn [is_num orb to_double]. rewrite integral_small by exact H.
  cbn [bind]. rewrite rem2_odd. reflexivity.
Qed.
Lemma even_small z : small z -> is_even (VInt z) = Ok (VBool (Z.even z)).
Proof.
  intros H. unfold is_even. cbn [is_num orb to_double]. rewrite integral_small by exact H.
  cbn [bind]. rewrite <- Z.negb_odd, <- rem2_odd, negb_involutive. reflexivity.
Qed.

(** ** max / min *)

Lemma extremum_loop_small (better : dbl -> dbl -> bool) (pick : Z -> Z -> Z) :
  (forall x y, small x -> small y ->
     (if better (d_of_Z x) (d_of_Z y) then d_of_Z x else d_of_Z y) = d_of_Z (pick y x)) ->
  (forall x y, pick x y = x \/ pick x y = y) ->
  forall args x, small x -> Forall small args ->
  extremum_loop better (d_of_Z x) true (map VInt args) = Ok (d_of_Z (fold_left pick args x), true)
  /\ small (fold_left pick args x).
Proof.
  intros Hb Hp. induction args as [|y args IH]; intros x Hx Hall; cbn [map extremum_loop fold_left].
  - auto.
  - inversion Hall as [|? ? Hy Hr]; subst. cbn [is_num orb to_double].
    rewrite Hb by assumption. apply IH; [|exact Hr].
    destruct (Hp x y) as [-> | ->]; assumption.
Qed.
Lemma extremum_small (better : dbl -> dbl -> bool) (pick : Z -> Z -> Z) :
  (forall x y, small x -> small y ->
     (if better (d_of_Z x) (d_of_Z y) then d_of_Z x else d_of_Z y) = d_of_Z (pick y x)) ->
  (forall x y, pick x y = x \/ pick x y = y) ->
  forall args x, small x -> Forall small args ->
  extremum better (map VInt (x :: args)) = Ok (VInt (fold_left pick args x)).
Proof.
  intros Hb Hp args x Hx Hall. unfold extremum. cbn [map is_num orb to_double].
  destruct (extremum_loop_small better pick Hb Hp args x Hx Hall) as [-> Hs].
  cbn [bind]. rewrite Z_of_d_small by exact Hs. cbn [bind].
  unfold deq. rewrite d_cmp_small by exact Hs. rewrite Z.compare_refl. reflexivity.
Qed.
Lemma max_small x args : small x -> Forall small args ->
  scm_max (map VInt (x :: args)) = Ok (VInt (zmax x args)).
Proof.
  intros Hx Hall. apply (extremum_small dgt Z.max); [| |exact Hx|exact Hall].
  - intros a b Ha Hb. unfold dgt. rewrite d_cmp_small by assumption.
    destruct (Z.compare_spec a b) as [E|E|E]; f_equal; lia.
  - intros a b. lia.
Qed.
Lemma min_small x args : small x -> Forall small args ->
  scm_min (map VInt (x :: args)) = Ok (VInt (zmin x args)).
Proof.
  intros Hx Hall. apply (extremum_small dlt Z.min); [| |exact Hx|exact Hall].
  - intros a b Ha Hb. unfold dlt. rewrite d_cmp_small by assumption.
    destruct (Z.compare_spec a b) as [E|E|E]; f_equal; lia.
  - intros a b. lia.
Qed.
Lemma zmax_spec l x : In (zmax x l) (x :: l) /\ (forall y, In y (x :: l) -> y <= zmax x l).
Proof.
  revert x. induction l as [|a l IH]; intros x; cbn [zmax fold_left].
  - split; [left; reflexivity|]. intros y [->|[]]. cbn. lia.
  - destruct (IH (Z.max x a)) as [H1 H2]. unfold zmax in *. split.
    + destruct H1 as [H1|H1]; [|right; right; exact H1].
      rewrite <- H1. destruct (Z.max_spec x a) as [[_ ->]|[_ ->]]; cbn; auto.
    + intros y [->|[->|Hy]].
      * transitivity (Z.max y a); [lia|]. apply H2. left. reflexivity.
      * transitivity (Z.max x y); [lia|]. apply H2. left. reflexivity.
      * apply H2. right. exact Hy.
Qed.
Lemma zmin_spec l x : In (zmin x l) (x :: l) /\ (forall y, In y (x :: l) -> zmin x l <= y).
Proof.
  revert x. induction l as [|a l IH]; intros x; cbn [zmin fold_left].
  - split; [left; reflexivity|]. intros y [->|[]]. cbn. lia.
  - destruct (IH (Z.min x a)) as [H1 H2]. unfold zmin in *. split.
    + destruct H1 as [H1|H1]; [|right; right; exact H1].
      rewrite <- H1. destruct (Z.min_spec x a) as [[_ ->]|[_ ->]]; cbn; auto.
    + intros y [->|[->|Hy]].
      * transitivity (Z.min y a); [|lia]. apply H2. left. reflexivity.
      * transitivity (Z.min x y); [|lia]. apply H2. left. reflexivity.
      * apply H2. right. exact Hy.
Qed.
