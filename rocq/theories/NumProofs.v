(** Proofs about NumModel.  The statements that matter are re-exported, closed
    by [exact], in NumProperties.v. *)
From Coq Require Import SpecFloat Lia ZifyBool Znumtheory Zquot.
From Verif Require Import Base NumModel NumSpec.

Ltac in64_tac := unfold in64, i64_min, i64_max in *; lia.

Lemma i64_ok z : in64 z = true -> i64 z = Ok z.
Proof. unfold i64. intros ->. reflexivity. Qed.
Lemma i64_ub z : in64 z = false -> i64 z = UB.
Proof. unfold i64. intros ->. reflexivity. Qed.
Lemma i64_inv z w : i64 z = Ok w -> w = z /\ in64 z = true.
Proof. unfold i64. destruct (in64 z); intros H; inversion H; auto. Qed.

(** ** + - * *)
Section Folds.
  Variable op : Z -> Z -> Z.
  Variable f : nval -> nval -> res nval.
  Hypothesis f_int : forall x y, f (VInt x) (VInt y) = do z <- i64 (op x y); Ok (VInt z).

  Lemma foldM_int_ok : forall args acc,
    (forall k, (0 < k <= length args)%nat -> in64 (fold_left op (firstn k args) acc) = true) ->
    foldM f (VInt acc) (map VInt args) = Ok (VInt (fold_left op args acc)).
  Proof.
    induction args as [|x args IH]; intros acc H; cbn [map foldM fold_left]; [reflexivity|].
    rewrite f_int.
    assert (H1 : in64 (op acc x) = true).
    { specialize (H 1%nat). cbn in H. apply H. lia. }
    rewrite (i64_ok _ H1). cbn [bind]. apply IH.
    intros k Hk. specialize (H (S k)). cbn in H. apply H. lia.
  Qed.

  Lemma foldM_int_ub : forall args acc,
    (exists k, (0 < k <= length args)%nat /\ in64 (fold_left op (firstn k args) acc) = false) ->
    foldM f (VInt acc) (map VInt args) = UB.
  Proof.
    induction args as [|x args IH]; intros acc [k [Hk Hb]]; cbn [length] in Hk; [lia|].
    cbn [map foldM]. rewrite f_int.
    destruct (in64 (op acc x)) eqn:E.
    - rewrite (i64_ok _ E). cbn [bind]. apply IH.
      destruct k as [|[|k]]; [lia| |].
      + cbn in Hb. congruence.
      + exists (S k). split; [lia|]. exact Hb.
    - rewrite (i64_ub _ E). reflexivity.
  Qed.
End Folds.

Lemma add_number_int x y : add_number (VInt x) (VInt y) = do z <- i64 (x + y); Ok (VInt z).
Proof. reflexivity. Qed.
Lemma minus_number_int x y : minus_number (VInt x) (VInt y) = do z <- i64 (x - y); Ok (VInt z).
Proof. reflexivity. Qed.
Lemma mul_number_int x y : mul_number (VInt x) (VInt y) = do z <- i64 (x * y); Ok (VInt z).
Proof. reflexivity. Qed.


Lemma fold_left_add l a : fold_left Z.add l a = a + zsum l.
Proof. revert a. induction l as [|x l IH]; intros a; cbn; [lia|]. rewrite IH. unfold zsum. lia. Qed.
Lemma fold_left_mul l a : fold_left Z.mul l a = a * zprod l.
Proof. revert a. induction l as [|x l IH]; intros a; cbn; [lia|]. rewrite IH. unfold zprod. lia. Qed.
Lemma fold_left_sub l a : fold_left Z.sub l a = a - zsum l.
Proof. revert a. induction l as [|x l IH]; intros a; cbn; [lia|]. rewrite IH. unfold zsum. lia. Qed.

Lemma plus_exact args :
  (forall k, (k <= length args)%nat -> in64 (zsum (firstn k args)) = true) ->
  scm_plus (map VInt args) = Ok (VInt (zsum args)).
Proof.
  intros H. unfold scm_plus. rewrite (foldM_int_ok Z.add _ add_number_int).
  - rewrite fold_left_add. f_equal.
  - intros k Hk. rewrite fold_left_add. apply H. lia.
Qed.
Lemma plus_ub args k :
  (k <= length args)%nat -> in64 (zsum (firstn k args)) = false ->
  scm_plus (map VInt args) = UB.
Proof.
  intros Hk H. unfold scm_plus. apply (foldM_int_ub Z.add _ add_number_int).
  destruct k as [|k]; [discriminate|].
  exists (S k). split; [lia|]. rewrite fold_left_add. exact H.
Qed.
Lemma times_exact args :
  (forall k, (k <= length args)%nat -> in64 (zprod (firstn k args)) = true) ->
  scm_times (map VInt args) = Ok (VInt (zprod args)).
Proof.
  intros H. unfold scm_times. rewrite (foldM_int_ok Z.mul _ mul_number_int).
  - rewrite fold_left_mul. do 2 f_equal. lia.
  - intros k Hk. rewrite fold_left_mul. rewrite Z.mul_1_l. apply H. lia.
Qed.
Lemma times_ub args k :
  (k <= length args)%nat -> in64 (zprod (firstn k args)) = false ->
  scm_times (map VInt args) = UB.
Proof.
  intros Hk H. unfold scm_times. apply (foldM_int_ub Z.mul _ mul_number_int).
  destruct k as [|k]; [discriminate|].
  exists (S k). split; [lia|]. rewrite fold_left_mul, Z.mul_1_l. exact H.
Qed.
Lemma minus_exact a b args :
  (forall k, (k <= length args)%nat -> in64 (a - b - zsum (firstn k args)) = true) ->
  scm_minus (map VInt (a :: b :: args)) = Ok (VInt (a - b - zsum args)).
Proof.
  intros H. unfold scm_minus. cbn [map].
  change (VInt b :: map VInt args) with (map VInt (b :: args)).
  rewrite (foldM_int_ok Z.sub _ minus_number_int).
  - cbn [fold_left]. rewrite fold_left_sub. reflexivity.
  - intros k Hk. destruct k as [|k]; [lia|]. cbn [firstn fold_left].
    rewrite fold_left_sub. apply H. cbn in Hk. lia.
Qed.
Lemma minus_ub a b args k :
  (k <= length args)%nat -> in64 (a - b - zsum (firstn k args)) = false ->
  scm_minus (map VInt (a :: b :: args)) = UB.
Proof.
  intros Hk H. unfold scm_minus. cbn [map].
  change (VInt b :: map VInt args) with (map VInt (b :: args)).
  apply (foldM_int_ub Z.sub _ minus_number_int).
  exists (S k). cbn [length firstn fold_left]. split; [lia|].
  rewrite fold_left_sub. exact H.
Qed.
Lemma minus_unary a : scm_minus [VInt a] = do z <- i64 (- a); Ok (VInt z).
Proof. reflexivity. Qed.

(** ** quotient / remainder / modulo *)
Lemma quot_bound x y : in64 x = true -> y <> 0 -> (x = i64_min /\ y = -1) \/ in64 (Z.quot x y) = true.
Proof.
  intros Hx Hy.
  destruct (Z.eq_dec y (-1)) as [->|Hn].
  - destruct (Z.eq_dec x i64_min) as [->|Hm]; [left; auto|].
    right. change (-1) with (Z.opp 1). rewrite Z.quot_opp_r, Z.quot_1_r by lia.
    in64_tac.
  - right.
    assert (Ha : Z.abs (Z.quot x y) <= Z.abs x).
    { rewrite <- Z.quot_abs by lia.
      apply Z.quot_le_upper_bound; [lia|].
      assert (1 <= Z.abs y) by lia. nia. }
    destruct (Z.eq_dec y 1) as [->|Hn1]; [rewrite Z.quot_1_r; exact Hx|].
    assert (Hb : 2 * Z.abs (Z.quot x y) <= Z.abs x).
    { rewrite <- Z.quot_abs by lia.
      pose proof (Z.mul_quot_le (Z.abs x) (Z.abs y)) as Hm.
      assert (0 <= Z.quot (Z.abs x) (Z.abs y)) by (apply Z.quot_pos; lia).
      nia. }
    unfold in64, i64_min, i64_max in *. lia.
Qed.


Lemma cdiv_ok x y : div_ok x y -> cdiv x y = Ok (Z.quot x y).
Proof.
  intros (Hx & Hy & Hn & Hm). unfold cdiv.
  destruct (y =? 0) eqn:E; [lia|].
  apply i64_ok. destruct (quot_bound x y Hx Hn); tauto.
Qed.
Lemma quot_rem' x y : x = y * Z.quot x y + Z.rem x y.
Proof. apply Z.quot_rem'. Qed.

Lemma rem_bound x y : y <> 0 -> Z.abs (Z.rem x y) < Z.abs y /\ Z.abs (Z.rem x y) <= Z.abs x.
Proof.
  intros Hy. split.
  - rewrite <- Z.rem_abs by lia. apply Z.rem_bound_pos; lia.
  - rewrite <- Z.rem_abs by lia. apply Z.rem_le; lia.
Qed.
Lemma prod_bound x y : in64 x = true -> y <> 0 -> in64 (y * Z.quot x y) = true.
Proof.
  intros Hx Hy.
  assert (H : Z.abs (y * Z.quot x y) <= Z.abs x /\ (0 <= x -> 0 <= y * Z.quot x y) /\ (x <= 0 -> y * Z.quot x y <= 0)).
  { pose proof (Z.quot_rem' x y) as E.
    pose proof (rem_bound x y Hy) as [_ B].
    pose proof (Z.rem_sign_mul x y Hy) as S.
    assert (Hs: (0 <= x -> 0 <= y * Z.quot x y) /\ (x <= 0 -> y * Z.quot x y <= 0)).
    { split; intros; nia. }
    split; [|exact Hs]. destruct Hs as [H1 H2].
    destruct (Z.le_ge_cases 0 x); nia. }
  unfold in64, i64_min, i64_max in *. lia.
Qed.

Lemma quotient_ok x y : div_ok x y -> scm_quotient (VInt x) (VInt y) = Ok (VInt (Z.quot x y)).
Proof.
  intros H. unfold scm_quotient. rewrite (cdiv_ok _ _ H).
  destruct H as (_ & _ & Hn & _). destruct (y =? 0) eqn:E; [lia|]. reflexivity.
Qed.
Lemma rem_in64 x y : in64 x = true -> in64 y = true -> y <> 0 -> in64 (Z.rem x y) = true.
Proof.
  intros Hx Hy Hn. pose proof (rem_bound x y Hn) as [A B].
  unfold in64, i64_min, i64_max in *. lia.
Qed.
Lemma remainder_ok x y : div_ok x y -> scm_remainder (VInt x) (VInt y) = Ok (VInt (Z.rem x y)).
Proof.
  intros H. unfold scm_remainder. rewrite (cdiv_ok _ _ H).
  destruct H as (Hx & Hy & Hn & Hm). destruct (y =? 0) eqn:E; [lia|].
  cbn [bind]. rewrite i64_ok by (apply prod_bound; assumption). cbn [bind].
  replace (x - y * Z.quot x y) with (Z.rem x y) by (pose proof (Z.quot_rem' x y); lia).
  rewrite i64_ok by (apply rem_in64; assumption). reflexivity.
Qed.
Lemma modulo_ok x y : div_ok x y -> scm_modulo (VInt x) (VInt y) = Ok (VInt (x mod y)).
Proof.
  intros H. unfold scm_modulo. rewrite (cdiv_ok _ _ H).
  destruct H as (Hx & Hy & Hn & Hm). destruct (y =? 0) eqn:E; [lia|].
  cbn [bind]. rewrite i64_ok by (apply prod_bound; assumption). cbn [bind].
  replace (x - y * Z.quot x y) with (Z.rem x y) by (pose proof (Z.quot_rem' x y); lia).
  rewrite i64_ok by (apply rem_in64; assumption). cbn [bind].
  pose proof (Z.quot_rem' x y) as Q.
  pose proof (rem_bound x y Hn) as [B _].
  set (r := Z.rem x y) in *. set (q := Z.quot x y) in *.
  destruct ((r >? 0) && (y <? 0)) eqn:E1.
  - rewrite i64_ok by (unfold in64, i64_min, i64_max in *; lia). cbn [bind]. do 2 f_equal.
    apply (Z.mod_unique x y (q - 1)); [lia|nia].
  - destruct ((r <? 0) && (y >? 0)) eqn:E2.
    + rewrite i64_ok by (unfold in64, i64_min, i64_max in *; lia). cbn [bind]. do 2 f_equal.
      apply (Z.mod_unique x y (q - 1)); [lia|nia].
    + do 2 f_equal. apply (Z.mod_unique x y q); [lia|nia].
Qed.
Lemma division_by_zero x :
  scm_quotient (VInt x) (VInt 0) = Err /\ scm_remainder (VInt x) (VInt 0) = Err /\
  scm_modulo (VInt x) (VInt 0) = Err.
Proof. repeat split. Qed.
Lemma quotient_min_ub : scm_quotient (VInt i64_min) (VInt (-1)) = UB
  /\ scm_remainder (VInt i64_min) (VInt (-1)) = UB /\ scm_modulo (VInt i64_min) (VInt (-1)) = UB.
Proof. repeat split. Qed.

(** ** gcd *)
Lemma crem_nonneg a b : 0 <= a -> in64 a = true -> 0 < b -> crem a b = Ok (a mod b).
Proof.
  intros Ha Hi Hb. unfold crem. destruct (b =? 0) eqn:E; [lia|].
  assert (Hq : in64 (Z.quot a b) = true).
  { destruct (quot_bound a b Hi) as [[H _]|H]; [lia| |exact H]. unfold i64_min in H. lia. }
  rewrite (i64_ok _ Hq). cbn [bind]. f_equal. apply Z.rem_mod_nonneg; lia.
Qed.

Lemma gcd_loop_ok : forall n fuel a b,
  0 <= a -> in64 a = true -> 0 <= b < 2 ^ Z.of_nat n -> in64 b = true ->
  (2 * n + 2 <= fuel)%nat ->
  gcd_loop fuel a b = Ok (Z.gcd a b).
Proof.
  induction n as [|n IH]; intros fuel a b Ha Hia Hb Hib Hf.
  - assert (b = 0) by (cbn in Hb; lia). subst b.
    destruct fuel as [|fuel]; [lia|]. cbn [gcd_loop]. cbn [Z.eqb].
    rewrite Z.gcd_0_r. f_equal. lia.
  - destruct fuel as [|[|fuel]]; [lia|lia|].
    cbn [gcd_loop]. destruct (b =? 0) eqn:E.
    { assert (b = 0) by lia. subst. rewrite Z.gcd_0_r. f_equal. lia. }
    rewrite crem_nonneg by lia. cbn [bind].
    assert (Hr : 0 <= a mod b < b) by (apply Z.mod_pos_bound; lia).
    assert (Hg : Z.gcd a b = Z.gcd b (a mod b)).
    { rewrite (Z.gcd_comm b). rewrite Z.gcd_mod by lia. apply Z.gcd_comm. }
    destruct (a mod b =? 0) eqn:E2.
    { rewrite Hg. assert (a mod b = 0) as -> by lia. rewrite Z.gcd_0_r. f_equal. lia. }
    assert (Hir : in64 (a mod b) = true) by (unfold in64, i64_min, i64_max in *; lia).
    rewrite crem_nonneg by lia. cbn [bind].
    assert (Hr2 : 0 <= b mod (a mod b) < a mod b) by (apply Z.mod_pos_bound; lia).
    rewrite IH; try lia.
    + rewrite Hg. f_equal. rewrite (Z.gcd_comm (a mod b)). rewrite Z.gcd_mod by lia. apply Z.gcd_comm.
    + split; [lia|].
      pose proof (Z.div_mod b (a mod b)) as D.
      assert (1 <= b / (a mod b)) by (apply Z.div_le_lower_bound; lia).
      rewrite Nat2Z.inj_succ, Z.pow_succ_r in Hb by lia. nia.
    + unfold in64, i64_min, i64_max in *; lia.
Qed.

Lemma gcd_loop_enough a b :
  0 <= a -> in64 a = true -> 0 <= b -> in64 b = true ->
  gcd_loop (gcd_fuel b) a b = Ok (Z.gcd a b).
Proof.
  intros Ha Hia Hb Hib.
  apply (gcd_loop_ok (Z.to_nat (Z.log2 b + 1))); try assumption.
  - split; [lia|]. pose proof (Z.log2_nonneg b). rewrite Z2Nat.id by lia.
    destruct (Z.eq_dec b 0) as [->|Hn]; [cbn; lia|].
    pose proof (Z.log2_spec b). unfold Z.succ in *. lia.
  - unfold gcd_fuel. pose proof (Z.log2_nonneg b). lia.
Qed.

Lemma cabs_ok x : in64 x = true -> x <> i64_min -> cabs x = Ok (Z.abs x) /\ in64 (Z.abs x) = true.
Proof.
  intros H Hn. unfold cabs, i64.
  assert (Hb : in64 (Z.abs x) = true) by (unfold in64, i64_min, i64_max in *; lia).
  split; [|exact Hb].
  destruct (x <? 0) eqn:E.
  - replace (- x) with (Z.abs x) by lia. rewrite Hb. reflexivity.
  - f_equal. lia.
Qed.
Lemma cabs_min : cabs i64_min = UB.
Proof. reflexivity. Qed.

Lemma cgcd_ok a b : in64 a = true -> in64 b = true -> a <> i64_min -> b <> i64_min ->
  cgcd a b = Ok (Z.gcd a b).
Proof.
  intros Ha Hb Hna Hnb. unfold cgcd.
  destruct (cabs_ok a Ha Hna) as [-> Ha']. destruct (cabs_ok b Hb Hnb) as [-> Hb'].
  cbn [bind]. rewrite gcd_loop_enough by (auto; lia).
  rewrite Z.gcd_abs_l, Z.gcd_abs_r. reflexivity.
Qed.


Lemma gcd_fits a b : fits a -> fits b -> fits (Z.gcd a b).
Proof.
  intros [Ha Hna] [Hb Hnb]. pose proof (Z.gcd_nonneg a b) as P.
  assert (U : Z.gcd a b <= Z.max (Z.abs a) (Z.abs b)).
  { destruct (Z.eq_dec a 0) as [->|Ha0].
    - rewrite Z.gcd_0_l. lia.
    - pose proof (Z.gcd_divide_l a b) as D. apply Z.divide_abs_r in D.
      apply Z.divide_pos_le in D; lia. }
  split; unfold in64, i64_min, i64_max in *; lia.
Qed.


Lemma gcd_args_ok : forall args acc,
  0 <= acc -> fits acc -> Forall fits args ->
  gcd_args acc (map VInt args) = Ok (Z.gcd acc (zgcd args)).
Proof.
  induction args as [|x args IH]; intros acc H0 Hf Hall; cbn [map gcd_args].
  - cbn. rewrite Z.gcd_0_r. f_equal. lia.
  - inversion Hall as [|? ? Hx Hrest]; subst.
    rewrite cgcd_ok by (try apply Hf; try apply Hx). cbn [bind].
    rewrite IH; [|apply Z.gcd_nonneg|apply gcd_fits; assumption|assumption].
    cbn. rewrite Z.gcd_assoc. reflexivity.
Qed.
Lemma scm_gcd_ok args : Forall fits args -> scm_gcd (map VInt args) = Ok (VInt (zgcd args)).
Proof.
  intros H. destruct args as [|x args]; [reflexivity|].
  inversion H as [|? ? Hx Hrest]; subst. cbn [map scm_gcd].
  destruct (cabs_ok x) as [-> Hb]; try apply Hx. cbn [bind].
  rewrite gcd_args_ok.
  - cbn [bind zgcd fold_right]. rewrite Z.gcd_abs_l. reflexivity.
  - lia.
  - split; [exact Hb|]. unfold i64_min. lia.
  - exact Hrest.
Qed.
Lemma zgcd_spec args :
  0 <= zgcd args /\
  (forall x, In x args -> (zgcd args | x)) /\
  (forall d, (forall x, In x args -> (d | x)) -> (d | zgcd args)).
Proof.
  induction args as [|a args (IH0 & IH1 & IH2)]; cbn.
  - repeat split; [lia| |].
    + intros x [].
    + intros d _. exists 0. lia.
  - split; [apply Z.gcd_nonneg|]. split.
    + intros x [->|Hx]; [apply Z.gcd_divide_l|].
      transitivity (zgcd args); [apply Z.gcd_divide_r|apply IH1; exact Hx].
    + intros d Hd. apply Z.gcd_greatest; [apply Hd; auto|apply IH2; intros; apply Hd; auto].
Qed.


Lemma lcm_quot a v : 0 <= a -> Z.gcd a v <> 0 -> Z.quot a (Z.gcd a v) * Z.abs v = Z.lcm a v.
Proof.
  intros Ha Hg. unfold Z.lcm.
  pose proof (Z.gcd_nonneg a v) as Hp.
  pose proof (Z.gcd_divide_l a v) as [q Hq].
  pose proof (Z.gcd_divide_r a v) as [r Hr].
  set (g := Z.gcd a v) in *.
  assert (Z.quot a g = q) as ->.
  { rewrite Hq. apply Z.quot_mul. lia. }
  assert (v / g = r) as ->.
  { rewrite Hr. apply Z.div_mul. lia. }
  rewrite Hq, Hr. rewrite !Z.abs_mul. rewrite (Z.abs_eq g) by lia.
  assert (0 <= q) by nia. rewrite (Z.abs_eq q) by lia. nia.
Qed.

Lemma zlcm_nonneg l : 0 <= zlcm l.
Proof. destruct l; cbn; [lia|apply Z.lcm_nonneg]. Qed.

Lemma lcm_args_ok : forall args acc,
  0 <= acc -> fits acc -> Forall fits args ->
  (forall k, (k <= length args)%nat -> in64 (Z.lcm acc (zlcm (firstn k args))) = true) ->
  lcm_args acc (map VInt args) = Ok (Z.lcm acc (zlcm args)).
Proof.
  induction args as [|x args IH]; intros acc H0 Hf Hall Hb; cbn [map lcm_args].
  - cbn. rewrite Z.lcm_1_r. f_equal. lia.
  - inversion Hall as [|? ? Hx Hrest]; subst.
    destruct (cabs_ok x) as [-> Hb']; try apply Hx. cbn [bind].
    assert (Hfa : fits (Z.abs x)) by (split; [exact Hb'|unfold i64_min; lia]).
    rewrite cgcd_ok by (try apply Hf; try apply Hfa). cbn [bind].
    rewrite Z.gcd_abs_r.
    destruct (Z.gcd acc x =? 0) eqn:E.
    + assert (G : Z.gcd acc x = 0) by lia. apply Z.gcd_eq_0 in G as [-> ->].
      reflexivity.
    + pose proof (Z.gcd_nonneg acc x) as Hgp.
      assert (Hd : div_ok acc (Z.gcd acc x)).
      { pose proof (gcd_fits acc x Hf Hx) as [Hg1 Hg2].
        repeat split; try apply Hf; try assumption; unfold i64_min in *; lia. }
      rewrite (cdiv_ok _ _ Hd). cbn [bind].
      rewrite lcm_quot by lia.
      assert (Hl : in64 (Z.lcm acc x) = true).
      { specialize (Hb 1%nat). cbn in Hb. rewrite Z.lcm_1_r in Hb.
        replace (Z.lcm acc x) with (Z.lcm acc (Z.abs x)) by apply Z.lcm_abs_r. apply Hb. lia. }
      rewrite (i64_ok _ Hl). cbn [bind].
      rewrite IH.
      * cbn. rewrite Z.lcm_assoc. reflexivity.
      * apply Z.lcm_nonneg.
      * split; [exact Hl|]. pose proof (Z.lcm_nonneg acc x). unfold i64_min. lia.
      * exact Hrest.
      * intros k Hk. specialize (Hb (S k)). cbn in Hb. rewrite Z.lcm_assoc in Hb. apply Hb. lia.
Qed.
Lemma scm_lcm_ok args :
  Forall fits args ->
  (forall k, (k <= length args)%nat -> in64 (zlcm (firstn k args)) = true) ->
  scm_lcm (map VInt args) = Ok (VInt (zlcm args)).
Proof.
  intros H Hb. destruct args as [|x args]; [reflexivity|].
  inversion H as [|? ? Hx Hrest]; subst. cbn [map scm_lcm].
  destruct (cabs_ok x) as [-> Hbx]; try apply Hx. cbn [bind].
  rewrite lcm_args_ok.
  - cbn [bind zlcm fold_right]. rewrite Z.lcm_abs_l. reflexivity.
  - lia.
  - split; [exact Hbx|]. unfold i64_min. lia.
  - exact Hrest.
  - intros k Hk. rewrite Z.lcm_abs_l. apply (Hb (S k)). cbn. lia.
Qed.
Lemma zlcm_spec args :
  0 <= zlcm args /\
  (forall x, In x args -> (x | zlcm args)) /\
  (forall m, (forall x, In x args -> (x | m)) -> (zlcm args | m)).
Proof.
  induction args as [|a args (IH0 & IH1 & IH2)]; cbn.
  - repeat split; [lia| |].
    + intros x [].
    + intros d _. exists d. lia.
  - split; [apply Z.lcm_nonneg|]. split.
    + intros x [->|Hx]; [apply Z.divide_lcm_l|].
      transitivity (zlcm args); [apply IH1; exact Hx|apply Z.divide_lcm_r].
    + intros d Hd. apply Z.lcm_least; [apply Hd; auto|apply IH2; intros; apply Hd; auto].
Qed.

(** ** ratios *)

Lemma make_ratio_pos n d : fits n -> fits d -> n <> 0 -> 0 < d ->
  exists v,
    (do g <- cgcd n d; do n' <- cdiv n g; do d' <- cdiv d g;
     if d' =? 1 then Ok (VInt n') else Ok (VRatio n' d')) = Ok v
    /\ denotes v n d /\ normal v.
Proof.
  intros Hn Hd Hn0 Hd0.
  rewrite cgcd_ok by (try apply Hn; try apply Hd). cbn [bind].
  pose proof (gcd_fits n d Hn Hd) as [Hg _].
  pose proof (Z.gcd_nonneg n d) as Hgp.
  assert (Hg0 : Z.gcd n d <> 0) by (intros E; apply Z.gcd_eq_0 in E; lia).
  rewrite cdiv_ok by (repeat split; try apply Hn; try assumption; unfold i64_min; lia).
  rewrite cdiv_ok by (repeat split; try apply Hd; try assumption; unfold i64_min; lia).
  cbn [bind].
  pose proof (Z.gcd_div_gcd n d (Z.gcd n d) Hg0 eq_refl) as Hco.
  pose proof (Z.gcd_divide_l n d) as [a Ha].
  pose proof (Z.gcd_divide_r n d) as [b Hb].
  set (g := Z.gcd n d) in *.
  assert (Z.quot n g = a) as -> by (rewrite Ha; apply Z.quot_mul; lia).
  assert (Z.quot d g = b) as -> by (rewrite Hb; apply Z.quot_mul; lia).
  assert (n / g = a) as Ea by (rewrite Ha; apply Z.div_mul; lia).
  assert (d / g = b) as Eb by (rewrite Hb; apply Z.div_mul; lia).
  rewrite Ea, Eb in Hco.
  assert (Hb0 : 0 < b) by nia.
  assert (Hna : in64 a = true).
  { destruct Hn as [Hn1 Hn2]. unfold in64, i64_min, i64_max in *.
    assert (Z.abs a <= Z.abs n) by (rewrite Ha, Z.abs_mul; nia). lia. }
  assert (Hnb : in64 b = true).
  { destruct Hd as [Hn1 Hn2]. unfold in64, i64_min, i64_max in *.
    assert (Z.abs b <= Z.abs d) by (rewrite Hb, Z.abs_mul; nia). lia. }
  destruct (b =? 1) eqn:E.
  - exists (VInt a). split; [reflexivity|]. split; [|exact Hna].
    cbn. assert (b = 1) by lia. nia.
  - exists (VRatio a b). split; [reflexivity|]. cbn.
    repeat split; try assumption; try lia; nia.
Qed.

Lemma make_ratio_ok n d : fits n -> fits d -> d <> 0 ->
  exists v, make_ratio n d = Ok v /\ denotes v n d /\ normal v.
Proof.
  intros Hn Hd Hd0. unfold make_ratio.
  destruct (d =? 0) eqn:E0; [lia|].
  destruct (n =? 0) eqn:En.
  - exists (VInt 0). split; [reflexivity|]. cbn. split; [lia|reflexivity].
  - destruct (d <? 0) eqn:Ed.
    + assert (fits (- n)) as Hn' by (destruct Hn; split; unfold in64, i64_min, i64_max in *; lia).
      assert (fits (- d)) as Hd' by (destruct Hd; split; unfold in64, i64_min, i64_max in *; lia).
      rewrite (i64_ok (- n)) by apply Hn'. rewrite (i64_ok (- d)) by apply Hd'.
      cbn [bind].
      destruct (make_ratio_pos (- n) (- d) Hn' Hd') as (v & Hv & Hden & Hnorm); [lia|lia|].
      exists v. split; [exact Hv|]. split; [|exact Hnorm].
      destruct v; cbn in *; try contradiction; [lia|]. split; [tauto|].
      destruct Hden as [_ Hden]. lia.
    + cbn [bind]. apply make_ratio_pos; try assumption; lia.
Qed.


Lemma div2_exact a b n1 d1 n2 d2 :
  exact_num a = Some (n1, d1) -> exact_num b = Some (n2, d2) ->
  n2 <> 0 -> fits (n1 * d2) -> fits (d1 * n2) -> d1 <> 0 ->
  exists v, scm_div [a; b] = Ok v /\ denotes v (n1 * d2) (d1 * n2) /\ normal v.
Proof.
  intros Ea Eb Hn2 Hf1 Hf2 Hd1.
  assert (H : scm_div [a; b] = div_exact_loop n1 d1 [b]).
  { destruct a; inversion Ea; subst; reflexivity. }
  rewrite H.
  assert (H' : div_exact_loop n1 d1 [b] =
    if n2 =? 0 then Err else do n <- i64 (n1 * d2); do d <- i64 (d1 * n2); make_ratio n d).
  { destruct b; inversion Eb; subst; reflexivity. }
  rewrite H'. destruct (n2 =? 0) eqn:E; [lia|].
  rewrite (i64_ok (n1 * d2)) by apply Hf1. rewrite (i64_ok (d1 * n2)) by apply Hf2. cbn [bind].
  apply make_ratio_ok; try assumption. nia.
Qed.
Lemma div_by_exact_zero a b n1 d1 d2 :
  exact_num a = Some (n1, d1) -> exact_num b = Some (0, d2) -> scm_div [a; b] = Err.
Proof.
  intros Ea Eb. destruct a; inversion Ea; subst; destruct b; inversion Eb; subst; reflexivity.
Qed.
Lemma mul2_exact a b n1 d1 n2 d2 :
  exact_num a = Some (n1, d1) -> exact_num b = Some (n2, d2) -> d1 <> 0 -> d2 <> 0 ->
  fits (n1 * n2) -> fits (d1 * d2) -> d1 <> 0 ->
  exists v, mul_number a b = Ok v /\ denotes v (n1 * n2) (d1 * d2) /\ normal v.
Proof.
  intros Ea Eb Hd1 Hd2 Hf1 Hf2 _.
  destruct (is_ratio a || is_ratio b) eqn:Er.
  - assert (H : mul_number a b = do n <- i64 (n1 * n2); do d <- i64 (d1 * d2); make_ratio n d).
    { unfold mul_number. rewrite Er.
      destruct a; inversion Ea; subst; destruct b; inversion Eb; subst; reflexivity. }
    rewrite H. rewrite (i64_ok (n1 * n2)) by apply Hf1. rewrite (i64_ok (d1 * d2)) by apply Hf2.
    cbn [bind]. apply make_ratio_ok; try assumption. nia.
  - destruct a; inversion Ea; subst; destruct b; inversion Eb; subst; try discriminate.
    exists (VInt (n1 * n2)). unfold mul_number. cbn [is_ratio orb is_float promote int_binop].
    rewrite (i64_ok (n1 * n2)) by apply Hf1. split; [reflexivity|].
    cbn. split; [lia|apply Hf1].
Qed.

Lemma zcmp_spec o x y : zcmp o x y = true <-> zrel o x y.
Proof. destruct o; cbn; lia. Qed.


Lemma chain_loop_spec o : forall rest x,
  exists b, chain_loop o (VInt x) (map VInt rest) = Ok (VBool b) /\ (b = true <-> chain o (x :: rest)).
Proof.
  induction rest as [|y rest IH]; intros x.
  - exists true. split; [reflexivity|]. cbn. tauto.
  - cbn [map chain_loop]. cbn [cmp_number promote is_float orb int_binop bind].
    unfold cmp_number. cbn [promote is_float orb int_binop bind].
    destruct (zcmp o x y) eqn:E.
    + destruct (IH y) as (b & Hb & Hi). exists b. split; [exact Hb|].
      rewrite Hi. apply zcmp_spec in E. cbn. tauto.
    + exists false. split; [reflexivity|]. split; [discriminate|].
      intros [H _]. apply zcmp_spec in H. congruence.
Qed.
Lemma cmp_spec o args :
  exists b, scm_cmp o (map VInt args) = Ok (VBool b) /\ (b = true <-> chain o args).
Proof.
  destruct args as [|x [|y [|z args]]].
  - exists true. cbn. tauto.
  - exists true. cbn. tauto.
  - exists (zcmp o x y). split; [reflexivity|]. rewrite zcmp_spec. cbn. tauto.
  - apply (chain_loop_spec o (y :: z :: args) x).
Qed.

(** ** expt *)
Lemma expt_loop_ok n1 : forall k ret,
  (forall j, (0 < j <= k)%nat -> in64 (ret * n1 ^ Z.of_nat j) = true) ->
  expt_loop k n1 ret = Ok (ret * n1 ^ Z.of_nat k).
Proof.
  induction k as [|k IH]; intros ret H; cbn [expt_loop].
  - cbn. f_equal. lia.
  - assert (H1 : in64 (ret * n1) = true).
    { specialize (H 1%nat). rewrite Z.pow_1_r in H. apply H. lia. }
    rewrite (i64_ok _ H1). cbn [bind]. rewrite IH.
    + f_equal. rewrite Nat2Z.inj_succ, Z.pow_succ_r by lia. ring.
    + intros j Hj. specialize (H (S j)). rewrite Nat2Z.inj_succ, Z.pow_succ_r in H by lia.
      rewrite <- Z.mul_assoc. apply H. lia.
Qed.
Lemma expt_ok b n : 0 <= n -> (forall j, 0 <= j <= n -> in64 (b ^ j) = true) ->
  scm_expt (VInt b) (VInt n) = Ok (VInt (b ^ n)).
Proof.
  intros Hn H. unfold scm_expt.
  destruct ((b =? 0) && (n =? 0)) eqn:E.
  { assert (b = 0) by lia. assert (n = 0) by lia. subst. reflexivity. }
  destruct (b =? 0) eqn:Eb.
  { assert (b = 0) by lia. subst. rewrite Z.pow_0_l by lia. reflexivity. }
  destruct (n =? 0) eqn:En.
  { assert (n = 0) by lia. subst. rewrite Z.pow_0_r. reflexivity. }
  destruct (n <? 0) eqn:El; [lia|]. cbn [bind].
  rewrite expt_loop_ok.
  - cbn [bind]. do 2 f_equal. rewrite Z2Nat.id by lia.
    rewrite <- Z.pow_succ_r by lia. f_equal. lia.
  - intros j Hj. rewrite <- Z.pow_succ_r by lia. apply H. lia.
Qed.
Lemma expt_neg b n : n < 0 -> b <> 0 -> n <> i64_min -> in64 n = true ->
  (forall j, 0 <= j <= - n -> in64 (b ^ j) = true) ->
  scm_expt (VInt b) (VInt n) =
    Ok (VInt (if b ^ (- n) =? 1 then 1 else if b ^ (- n) =? -1 then -1 else 0)).
Proof.
  intros Hn Hb Hm Hi H. unfold scm_expt.
  destruct (b =? 0) eqn:Eb; [lia|]. cbn [andb].
  destruct (n =? 0) eqn:En; [lia|].
  destruct (n <? 0) eqn:El; [|lia].
  rewrite i64_ok by (unfold in64, i64_min, i64_max in *; lia). cbn [bind].
  rewrite expt_loop_ok.
  - rewrite Z2Nat.id by lia. rewrite <- Z.pow_succ_r by lia.
    replace (Z.succ (- n - 1)) with (- n) by lia. cbn [bind].
    destruct (b ^ (- n) =? 1); [reflexivity|]. destruct (b ^ (- n) =? -1); reflexivity.
  - intros j Hj. rewrite <- Z.pow_succ_r by lia. apply H. lia.
Qed.

(** ** n-ary exact division by integers *)
Lemma div_exact_loop_ints : forall args num den,
  fits num -> fits den -> den <> 0 -> Forall (fun x => x <> 0) args ->
  (forall k, (k <= length args)%nat -> fits (den * zprod (firstn k args))) ->
  exists v, div_exact_loop num den (map VInt args) = Ok v /\
    denotes v num (den * zprod args) /\ normal v.
Proof.
  induction args as [|x args IH]; intros num den Hn Hd Hd0 Hall Hf; cbn [map div_exact_loop].
  - destruct (make_ratio_ok num den Hn Hd Hd0) as (v & H1 & H2 & H3).
    exists v. cbn. rewrite Z.mul_1_r. auto.
  - inversion Hall as [|? ? Hx Hr]; subst.
    destruct (x =? 0) eqn:E; [lia|].
    rewrite Z.mul_1_r. rewrite (i64_ok num) by apply Hn. cbn [bind].
    assert (Hfx : fits (den * x)).
    { specialize (Hf 1%nat). cbn in Hf. rewrite Z.mul_1_r in Hf. apply Hf. lia. }
    rewrite (i64_ok (den * x)) by apply Hfx. cbn [bind].
    destruct (IH num (den * x)) as (v & H1 & H2 & H3); auto.
    + nia.
    + intros k Hk. specialize (Hf (S k)). cbn in Hf. rewrite <- Z.mul_assoc. apply Hf. lia.
    + exists v. split; [exact H1|]. cbn. rewrite Z.mul_assoc. auto.
Qed.
Lemma scm_div_ints a b args :
  fits a -> Forall (fun x => x <> 0) (b :: args) ->
  (forall k, (k <= length (b :: args))%nat -> fits (zprod (firstn k (b :: args)))) ->
  exists v, scm_div (map VInt (a :: b :: args)) = Ok v /\
    denotes v a (zprod (b :: args)) /\ normal v.
Proof.
  intros Ha Hall Hf.
  destruct (div_exact_loop_ints (b :: args) a 1) as (v & H1 & H2 & H3); auto.
  - split; [reflexivity|discriminate].
  - lia.
  - intros k Hk. rewrite Z.mul_1_l. apply Hf. exact Hk.
  - exists v. rewrite Z.mul_1_l in H2. split; [exact H1|auto].
Qed.

(** ** which numeric calls can abort *)
Definition is_number (v : nval) : bool := is_num v || is_float v || is_ratio v.

Lemma i64_not_abort z : i64 z <> Abort.
Proof. unfold i64. destruct (in64 z); discriminate. Qed.
Lemma bind_not_abort {A B} (m : res A) (f : A -> res B) :
  m <> Abort -> (forall a, m = Ok a -> f a <> Abort) -> bind m f <> Abort.
Proof. destruct m; cbn; intros H1 H2; try congruence. apply H2. reflexivity. Qed.
Lemma cabs_not_abort x : cabs x <> Abort.
Proof. unfold cabs. destruct (x <? 0); [apply i64_not_abort|discriminate]. Qed.
Lemma crem_not_abort x y : crem x y <> Abort.
Proof.
  unfold crem. destruct (y =? 0); [discriminate|].
  apply bind_not_abort; [apply i64_not_abort|discriminate].
Qed.
Lemma cdiv_not_abort x y : cdiv x y <> Abort.
Proof. unfold cdiv. destruct (y =? 0); [discriminate|apply i64_not_abort]. Qed.
Lemma gcd_loop_not_abort : forall f a b, gcd_loop f a b <> Abort.
Proof.
  induction f as [|f IH]; intros a b; cbn [gcd_loop]; [discriminate|].
  destruct (b =? 0); [discriminate|].
  apply bind_not_abort; [apply crem_not_abort|intros; apply IH].
Qed.
Lemma cgcd_not_abort a b : cgcd a b <> Abort.
Proof.
  unfold cgcd. apply bind_not_abort; [apply cabs_not_abort|intros a' _].
  apply bind_not_abort; [apply cabs_not_abort|intros; apply gcd_loop_not_abort].
Qed.
Lemma make_ratio_not_abort n d : make_ratio n d <> Abort.
Proof.
  unfold make_ratio. destruct (d =? 0); [discriminate|]. destruct (n =? 0); [discriminate|].
  apply bind_not_abort.
  - destruct (d <? 0); [|discriminate].
    apply bind_not_abort; [apply i64_not_abort|intros].
    apply bind_not_abort; [apply i64_not_abort|discriminate].
  - intros [n' d'] _. apply bind_not_abort; [apply cgcd_not_abort|intros g _].
    apply bind_not_abort; [apply cdiv_not_abort|intros q _].
    apply bind_not_abort; [apply cdiv_not_abort|intros r _].
    destruct (r =? 1); discriminate.
Qed.
Lemma make_ratio_number n d v : make_ratio n d = Ok v -> is_number v = true.
Proof.
  unfold make_ratio. destruct (d =? 0); [discriminate|]. destruct (n =? 0).
  { intros H; inversion H; reflexivity. }
  destruct (if d <? 0 then _ else _) as [[n' d']| | | |]; cbn [bind]; try discriminate.
  destruct (cgcd n' d') as [g| | | |]; cbn [bind]; try discriminate.
  destruct (cdiv n' g) as [q| | | |]; cbn [bind]; try discriminate.
  destruct (cdiv d' g) as [r| | | |]; cbn [bind]; try discriminate.
  destruct (r =? 1); intros H; inversion H; reflexivity.
Qed.
Lemma mul_number_total a b : is_number a = true -> is_number b = true ->
  mul_number a b <> Abort /\ (forall v, mul_number a b = Ok v -> is_number v = true).
Proof.
  intros Ha Hb. destruct a, b; try discriminate; unfold mul_number;
    cbn [is_ratio is_float promote orb int_binop];
    (split; [|intros v]);
    repeat match goal with
    | |- bind (i64 ?z) _ <> Abort => apply bind_not_abort; [apply i64_not_abort|intros ? _]
    | |- make_ratio _ _ <> Abort => apply make_ratio_not_abort
    | |- Ok _ <> Abort => discriminate
    | |- Ok _ = Ok _ -> _ => intros E; inversion E; reflexivity
    | |- make_ratio _ _ = Ok _ -> _ => apply make_ratio_number
    | |- bind (i64 ?z) _ = Ok _ -> _ => destruct (i64 z); cbn [bind]; try discriminate
    end.
Qed.
Lemma times_never_aborts args : forallb is_number args = true -> scm_times args <> Abort.
Proof.
  unfold scm_times. assert (H0 : is_number (VInt 1) = true) by reflexivity.
  revert H0. generalize (VInt 1) as acc.
  induction args as [|a args IH]; intros acc Hacc Hall; cbn [foldM]; [discriminate|].
  cbn [forallb] in Hall. apply andb_prop in Hall as [Ha Hall].
  destruct (mul_number_total acc a Hacc Ha) as [H1 H2].
  apply bind_not_abort; [exact H1|]. intros v Hv. apply IH; [apply H2; exact Hv|exact Hall].
Qed.
Lemma div_float_loop_not_abort : forall args f, div_float_loop f args <> Abort.
Proof.
  induction args as [|a args IH]; intros f; cbn [div_float_loop]; [discriminate|].
  destruct (_ || _); [|discriminate]. destruct (deq _ _); [discriminate|apply IH].
Qed.
Lemma div_exact_loop_not_abort : forall args n d, div_exact_loop n d args <> Abort.
Proof.
  induction args as [|a args IH]; intros n d; cbn [div_exact_loop]; [apply make_ratio_not_abort|].
  destruct a; try discriminate;
    match goal with |- (if ?c then _ else _) <> _ => destruct c; [discriminate|] end;
    (apply bind_not_abort; [apply i64_not_abort|intros ? _]);
    (apply bind_not_abort; [apply i64_not_abort|intros ? _]); apply IH.
Qed.
Lemma div_never_aborts args : scm_div args <> Abort.
Proof.
  destruct args as [|a [|b args]]; [discriminate| |].
  - destruct a; cbn [scm_div]; try discriminate.
    + destruct (z =? 0); [discriminate|apply make_ratio_not_abort].
    + destruct (n =? 0); [discriminate|apply make_ratio_not_abort].
    + destruct (deq f dzero); discriminate.
  - destruct a; cbn [scm_div]; try discriminate.
    + apply div_exact_loop_not_abort.
    + apply div_exact_loop_not_abort.
    + apply div_float_loop_not_abort.
Qed.
Lemma add_abort_iff a b : is_number a = true -> is_number b = true ->
  (add_number a b = Abort <-> (is_ratio a || is_ratio b) && negb (is_float a || is_float b) = true).
Proof.
  intros Ha Hb. destruct a, b; try discriminate; unfold add_number;
    cbn [promote is_float is_ratio orb andb negb int_binop bind]; split; try discriminate; try reflexivity.
  intros H. exfalso. revert H. apply bind_not_abort; [apply i64_not_abort|discriminate].
Qed.
Lemma minus_abort_iff a b : is_number a = true -> is_number b = true ->
  (minus_number a b = Abort <-> (is_ratio a || is_ratio b) && negb (is_float a || is_float b) = true).
Proof.
  intros Ha Hb. destruct a, b; try discriminate; unfold minus_number;
    cbn [promote is_float is_ratio orb andb negb int_binop bind]; split; try discriminate; try reflexivity.
  intros H. exfalso. revert H. apply bind_not_abort; [apply i64_not_abort|discriminate].
Qed.
Lemma cmp_abort_iff o a b : is_number a = true -> is_number b = true ->
  (cmp_number o a b = Abort <-> (is_ratio a || is_ratio b) && negb (is_float a || is_float b) = true).
Proof.
  intros Ha Hb. destruct a, b; try discriminate; unfold cmp_number;
    cbn [promote is_float is_ratio orb andb negb int_binop bind]; split; try discriminate; try reflexivity.
Qed.

(** the five relations on exact integers are the usual total order *)
Lemma cmp2_spec o x y : scm_cmp o [VInt x; VInt y] = Ok (VBool (zcmp o x y)).
Proof. reflexivity. Qed.
