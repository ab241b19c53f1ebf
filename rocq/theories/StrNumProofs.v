From Coq Require Import Lia ZifyBool.
From Verif Require Import Base NumModel NumSpec NumProofs StrNumModel.

Lemma quot_shrink t r n : 2 <= r -> 0 <= t < 2 ^ Z.of_nat (S n) -> 0 <= Z.quot t r < 2 ^ Z.of_nat n.
Proof.
  intros Hr Ht. rewrite Z.quot_div_nonneg by lia.
  rewrite Nat2Z.inj_succ, Z.pow_succ_r in Ht by lia.
  split; [apply Z.div_pos; lia|]. apply Z.div_lt_upper_bound; [lia|]. nia.
Qed.

Lemma count_fill r : 2 <= r -> forall n fuel t len acc,
  0 <= t < 2 ^ Z.of_nat n -> (n < fuel)%nat ->
  exists ds, (* digit values, most significant first *)
    count_loop fuel r t len = Ok (len + Z.of_nat (length ds)) /\
    fill_loop fuel r t acc = Ok (map digit_char ds ++ acc) /\
    Forall (fun d => 0 <= d < r) ds /\
    (forall a, fold_left (fun a d => a * r + d) ds a = a * r ^ Z.of_nat (length ds) + t) /\
    (0 < t -> exists d ds', ds = d :: ds' /\ 0 < d).
Proof.
  intros Hr. induction n as [|n IH]; intros fuel t len acc Ht Hf.
  - assert (t = 0) by (cbn in Ht; lia). subst t. destruct fuel as [|fuel]; [lia|].
    exists []. cbn. split; [f_equal; lia|]. split; [reflexivity|]. split; [constructor|].
    split; [intros a; lia|lia].
  - destruct fuel as [|fuel]; [lia|]. cbn [count_loop fill_loop].
    destruct (t >? 0) eqn:E.
    + destruct (IH fuel (Z.quot t r) (len + 1) (digit_char (Z.rem t r) :: acc)) as (ds & H1 & H2 & H3 & H4 & H5).
      * apply quot_shrink; assumption.
      * lia.
      * assert (Hrem : 0 <= Z.rem t r < r) by (apply Z.rem_bound_pos; lia).
        exists (ds ++ [Z.rem t r]). rewrite H1, H2. repeat split.
        -- f_equal. rewrite app_length. cbn. lia.
        -- f_equal. rewrite map_app, <- app_assoc. reflexivity.
        -- apply Forall_app. split; [exact H3|]. constructor; [exact Hrem|constructor].
        -- intros a. rewrite fold_left_app. cbn [fold_left]. rewrite H4, app_length. cbn [length].
           rewrite Nat.add_1_r, Nat2Z.inj_succ, Z.pow_succ_r by lia.
           pose proof (Z.quot_rem' t r). nia.
        -- intros _. destruct (Z_lt_ge_dec 0 (Z.quot t r)) as [Hq|Hq].
           ++ destruct (H5 Hq) as (d & ds' & -> & Hd). exists d, (ds' ++ [Z.rem t r]). auto.
           ++ assert (Hq0 : 0 <= Z.quot t r) by (apply Z.quot_pos; lia).
              assert (Hz : Z.quot t r = 0) by lia.
              assert (Hds : ds = []).
              { rewrite Hz in H1. destruct fuel; cbn in H1; inversion H1.
                destruct ds; [reflexivity|cbn in *; lia]. }
              subst ds. exists (Z.rem t r), []. split; [reflexivity|].
              pose proof (Z.quot_rem' t r). nia.
    + exists []. cbn. split; [f_equal; lia|]. split; [reflexivity|]. split; [constructor|].
      split; [intros a; lia|lia].
Qed.

Lemma digit_val_char d : 0 <= d < 36 -> digit_val (digit_char d) = d.
Proof.
  intros H. unfold digit_char, digit_val. destruct (d <? 10) eqn:E.
  - destruct ((48 <=? 48 + d) && (48 + d <=? 57)) eqn:E1; lia.
  - destruct ((48 <=? 97 + (d - 10)) && (97 + (d - 10) <=? 57)) eqn:E1; [lia|].
    destruct ((97 <=? 97 + (d - 10)) && (97 + (d - 10) <=? 122)) eqn:E2; lia.
Qed.

Lemma strtol_digits_ok r : 2 <= r <= 36 -> forall ds acc any,
  Forall (fun d => 0 <= d < r) ds ->
  strtol_digits r acc any (map digit_char ds ++ [0]) =
    (fold_left (fun a d => a * r + d) ds acc, (match ds with [] => any | _ => true end), [0]).
Proof.
  intros Hr. induction ds as [|d ds IH]; intros acc any H; cbn [map app strtol_digits fold_left].
  - change (digit_val 0) with 99. destruct (99 <? r) eqn:E; [lia|reflexivity].
  - inversion H as [|? ? Hd Hr']; subst. rewrite digit_val_char by lia.
    destruct (d <? r) eqn:E; [|lia]. rewrite IH by assumption.
    destruct ds; reflexivity.
Qed.

Lemma digit_char_range d : 0 <= d < 36 ->
  48 <= digit_char d <= 57 \/ 97 <= digit_char d <= 122.
Proof. unfold digit_char. destruct (d <? 10) eqn:E; lia. Qed.

Lemma digit_char_nz d : 0 < d < 36 -> digit_char d <> 48.
Proof. unfold digit_char. destruct (d <? 10) eqn:E; lia. Qed.

Lemma skip_space_nonspace c r : is_space c = false -> skip_space (c :: r) = c :: r.
Proof. intros H. cbn. rewrite H. reflexivity. Qed.

Lemma strip_0x_digit r c s : c <> 48 -> strip_0x r (c :: s) = c :: s.
Proof.
  intros H. unfold strip_0x. destruct s as [|x [|h s]]; try reflexivity.
  destruct (c =? 48) eqn:E; [lia|]. rewrite andb_false_r. reflexivity.
Qed.
(* what strtol does on a non-empty digit string with a non-zero leading digit *)
Lemma strtol_pos r d ds : 2 <= r <= 36 -> 0 < d ->
  Forall (fun d => 0 <= d < r) (d :: ds) ->
  strtol (map digit_char (d :: ds) ++ [0]) r =
    Some (clamp64 (fold_left (fun a d => a * r + d) (d :: ds) 0), [0]).
Proof.
  intros Hr Hd Hall. inversion Hall as [|? ? Hd' _]; subst.
  pose proof (digit_char_range d ltac:(lia)) as Hrange.
  pose proof (digit_char_nz d ltac:(lia)) as Hnz.
  unfold strtol. cbn [map app].
  rewrite skip_space_nonspace by (unfold is_space; lia).
  cbn [strip_sign].
  destruct (digit_char d =? 45) eqn:E1; [lia|]. destruct (digit_char d =? 43) eqn:E2; [lia|].
  rewrite strip_0x_digit by exact Hnz.
  change (digit_char d :: map digit_char ds ++ [0]) with (map digit_char (d :: ds) ++ [0]).
  rewrite strtol_digits_ok by assumption. reflexivity.
Qed.
Lemma strtol_neg r d ds : 2 <= r <= 36 -> 0 < d ->
  Forall (fun d => 0 <= d < r) (d :: ds) ->
  strtol ((45 :: map digit_char (d :: ds)) ++ [0]) r =
    Some (clamp64 (- fold_left (fun a d => a * r + d) (d :: ds) 0), [0]).
Proof.
  intros Hr Hd Hall. inversion Hall as [|? ? Hd' _]; subst.
  pose proof (digit_char_nz d ltac:(lia)) as Hnz.
  unfold strtol. cbn [map app].
  rewrite skip_space_nonspace by reflexivity.
  cbn [strip_sign Z.eqb Pos.eqb].
  rewrite strip_0x_digit by exact Hnz.
  change (digit_char d :: map digit_char ds ++ [0]) with (map digit_char (d :: ds) ++ [0]).
  rewrite strtol_digits_ok by assumption. reflexivity.
Qed.

Lemma no_float_chars (ds : list Z) : Forall (fun d => 0 <= d < 10) ds ->
  existsb (fun c => (c =? 46) || (c =? 101) || (c =? 69)) (map digit_char ds) = false.
Proof.
  induction ds as [|d ds IH]; intros H; [reflexivity|].
  inversion H as [|? ? Hd Hr]; subst. cbn [map existsb]. rewrite IH by assumption.
  unfold digit_char. destruct (d <? 10) eqn:E; lia.
Qed.

Lemma get_radix_ok r : 2 <= r <= 36 -> get_radix (Some (VInt r)) = Ok r.
Proof.
  intros H. unfold get_radix, to_int32.
  rewrite Z.mod_small by lia. replace (r + 2 ^ 31 - 2 ^ 31) with r by lia.
  destruct ((r <? 2) || (r >? 36)) eqn:E; [lia|reflexivity].
Qed.

Lemma clamp_id z : in64 z = true -> clamp64 z = z.
Proof. unfold in64, clamp64, i64_min, i64_max. lia. Qed.

Lemma to_string_digits z r : 2 <= r <= 36 -> fits z -> z <> 0 ->
  exists d ds, int_to_string_radix z r =
      Ok (if z <? 0 then 45 :: map digit_char (d :: ds) else map digit_char (d :: ds)) /\
    Forall (fun d => 0 <= d < r) (d :: ds) /\ 0 < d /\
    fold_left (fun a d => a * r + d) (d :: ds) 0 = Z.abs z.
Proof.
  intros Hr [Hz Hm] Hn. unfold int_to_string_radix.
  destruct (z =? 0) eqn:E0; [lia|].
  assert (E : (if z <? 0 then i64 (- z) else Ok z) = Ok (Z.abs z)).
  { destruct (z <? 0) eqn:E; [|f_equal; lia].
    rewrite i64_ok by (unfold in64, i64_min, i64_max in *; lia). f_equal. lia. }
  rewrite E. cbn [bind].
  destruct (count_fill r ltac:(lia) 63 64 (Z.abs z) 0 []) as (ds & H1 & H2 & H3 & H4 & H5).
  - change (2 ^ Z.of_nat 63) with (2 ^ 63). unfold in64, i64_min, i64_max in *. lia.
  - lia.
  - rewrite H1, H2. cbn [bind]. rewrite app_nil_r.
    rewrite map_length. assert (Z.of_nat (length ds) =? 0 + Z.of_nat (length ds) = true) as -> by lia.
    destruct (H5 ltac:(lia)) as (d & ds' & -> & Hd).
    exists d, ds'. split; [reflexivity|]. split; [exact H3|]. split; [exact Hd|].
    rewrite H4. lia.
Qed.

Lemma roundtrip_radix z r rad :
  fits z -> 2 <= r <= 36 ->
  get_radix rad = Ok r ->
  (do s <- number_to_string (VInt z) rad; string_to_number s rad) = Ok (SNInt z).
Proof.
  intros Hz Hr Hg. unfold number_to_string, string_to_number. rewrite Hg. cbn [bind].
  destruct (Z.eq_dec z 0) as [->|Hn].
  { cbn [int_to_string_radix Z.eqb bind length Nat.eqb existsb orb andb app].
    unfold strtol. cbn [skip_space is_space]. cbn.
    destruct (0 <? r) eqn:E; [|lia]. cbn.
    destruct (99 <? r) eqn:E2; [lia|]. reflexivity. }
  destruct (to_string_digits z r Hr Hz Hn) as (d & ds & E & Hall & Hd & Hv).
  rewrite E. cbn [bind].
  assert (Hlen : Nat.eqb (length (if z <? 0 then 45 :: map digit_char (d :: ds) else map digit_char (d :: ds))) 0 = false)
    by (destruct (z <? 0); reflexivity).
  rewrite Hlen.
  assert (Hfl : existsb (fun c => (c =? 46) || (c =? 101) || (c =? 69))
       (if z <? 0 then 45 :: map digit_char (d :: ds) else map digit_char (d :: ds)) && (r =? 10) = false).
  { destruct (r =? 10) eqn:E10; [|apply andb_false_r]. rewrite andb_true_r.
    assert (H := no_float_chars (d :: ds)).
    assert (r = 10) by lia. subst r. specialize (H Hall).
    destruct (z <? 0); [|exact H]. cbn [existsb] in *. exact H. }
  rewrite Hfl.
  destruct Hz as [Hz1 Hz2].
  destruct (z <? 0) eqn:Ez.
  - rewrite strtol_neg by assumption. rewrite Hv.
    rewrite clamp_id by (unfold in64, i64_min, i64_max in *; lia). do 2 f_equal. lia.
  - rewrite strtol_pos by assumption. rewrite Hv.
    rewrite clamp_id by (unfold in64, i64_min, i64_max in *; lia). do 2 f_equal. lia.
Qed.
