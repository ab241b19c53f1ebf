(** C199, C200: inexact literals. *)
From Coq Require Import SpecFloat QArith Qabs String Lia.
From Verif Require Import Base NumModel HeapModel StringModel ParseModel ParseSpec ParseProofs ParseProofs2 NumSpec2 NumLitProofs NumLitSpec.
Local Open Scope list_scope.
Local Open Scope Z_scope.

Lemma value_ge : forall ds a, Forall digit ds -> 0 <= a -> a <= value a ds.
Proof.
  induction ds as [|c r IH]; intros a F L; cbn [value]; [lia|]. inversion F as [|? ? D F']; subst. unfold digit in D.
  specialize (IH (a * 10 + (c - 48)) F'). lia.
Qed.
Lemma int_digits_value : forall ds a r, Forall digit ds -> 0 <= a -> value a ds <= i64_max -> isdigit (at0 r) = false ->
  int_digits a (ds ++ r) = Ok (value a ds, r).
Proof.
  induction ds as [|c ds IH]; intros a r F L M E.
  - cbn [app value]. destruct r as [|c r]; [reflexivity|]. cbn [int_digits]. unfold at0 in E. cbn [nth] in E. now rewrite E.
  - inversion F as [|? ? D F']; subst. cbn [app int_digits value] in *. rewrite (proj2 (isdigit_iff c) D). unfold digit in D.
    pose proof (value_ge ds (a * 10 + (c - 48)) F' ltac:(lia)).
    rewrite i64_ok by (unfold i64_min; lia). cbn [bind]. apply IH; auto; lia.
Qed.
Lemma pow10_tab n : (n <= 21)%nat -> dmul (nearest (10 ^ Z.of_nat n)) (d_of_Z 10) = nearest (10 ^ Z.of_nat (S n)).
Proof. intros L. do 22 (destruct n as [|n]; [vm_compute; reflexivity|]). lia. Qed.
Lemma frac_digits_value : forall fs a n r, Forall digit fs -> 0 <= a -> value a fs < 2 ^ 53 -> (n + length fs <= 22)%nat -> isdigit (at0 r) = false ->
  frac_digits (d_of_Z a) (nearest (10 ^ Z.of_nat n)) (fs ++ r) = (d_of_Z (value a fs), nearest (10 ^ Z.of_nat (n + length fs)), r).
Proof.
  induction fs as [|c fs IH]; intros a n r F L M N E.
  - cbn [app value length]. rewrite Nat.add_0_r. destruct r as [|c r]; [reflexivity|]. cbn [frac_digits]. unfold at0 in E. cbn [nth] in E. now rewrite E.
  - inversion F as [|? ? D F']; subst. cbn [app frac_digits value length] in *. rewrite (proj2 (isdigit_iff c) D). unfold digit in D.
    pose proof (value_ge fs (a * 10 + (c - 48)) F' ltac:(lia)).
    rewrite d_mul_small by lia. rewrite d_add_small by lia. rewrite pow10_tab by lia.
    rewrite IH by (auto; lia). now rewrite <- Nat.add_succ_comm.
Qed.
Lemma mult_value x : 0 <= x <= 22 -> Z.iter x (fun m => dmul m (d_of_Z 10)) (d_of_Z 1) = nearest (10 ^ x).
Proof.
  intros R. rewrite <- (Z2Nat.id x) by lia. assert (L : (Z.to_nat x <= 22)%nat) by lia. revert L. generalize (Z.to_nat x). clear. intros n L.
  do 23 (destruct n as [|n]; [vm_compute; reflexivity|]). lia.
Qed.
(* what follows a literal is not part of it *)
Definition stop (r : list Z) : Prop := isdigit (at0 r) = false /\ at0 r <> 46 /\ at0 r <> 101 /\ at0 r <> 69 /\ at0 r <> 43 /\ at0 r <> 45.
Lemma ends_stop r : ends r -> stop r.
Proof.
  intros [-> | (c & k & -> & H)]; unfold stop, at0; cbn [nth].
  - repeat split; try discriminate.
  - unfold blank in H. destruct (isdigit c) eqn:Q; [apply isdigit_iff in Q; unfold digit in Q; lia|]. lia.
Qed.
Lemma exp_stop e : exp_part e -> forall r, stop r -> isdigit (at0 (exp_text e ++ r)) = false /\ at0 (exp_text e ++ r) <> 46 /\
  at0 (exp_text e ++ r) <> 43 /\ at0 (exp_text e ++ r) <> 45.
Proof.
  destruct e as [[[m s] es]|]; cbn [exp_part exp_text]; intros P r S; [|now unfold stop in S].
  destruct P as [[-> | ->] _]; unfold at0; cbn [app nth]; repeat split; try discriminate; reflexivity.
Qed.
(* the exponent, whatever its size *)
Definition exp_value (m : dbl) (e : option (Z * sign * list Z)) : dbl :=
  match e with
  | None => m
  | Some (_, s, es) =>
      let mult := Z.iter (value 0 es) (fun m => dmul m (d_of_Z 10)) (d_of_Z 1) in
      match s with Minus => ddiv m mult | _ => dmul m mult end
  end.
Lemma digits_at0 ds r : digits ds -> isdigit (at0 (ds ++ r)) = true /\ at0 (ds ++ r) <> 45 /\ at0 (ds ++ r) <> 43.
Proof.
  intros [F N]. destruct ds as [|c ds]; [congruence|]. inversion F as [|? ? D _]; subst. unfold at0. cbn [app nth].
  split; [now apply isdigit_iff|]. unfold digit in D. lia.
Qed.
Lemma adv_cons c r : c <> 0 -> adv (c :: r) = Ok r.
Proof. intros N. unfold adv. try (destruct (Z.eqb_spec c 0); [congruence|]). reflexivity. Qed.
Lemma p_unsigned_value neg ds f fv e r : int_part ds -> frac_part f -> exp_part e -> stop r -> inexact_literal f e ->
  (match f with None => fv = d_of_Z (value 0 ds) | Some fs => exists x y, frac_digits dzero (d_of_Z 1) (fs ++ exp_text e ++ r) = (x, y, exp_text e ++ r) /\
     fv = dadd (d_of_Z (value 0 ds)) (ddiv x y) end) ->
  p_unsigned neg (ds ++ frac_text f ++ exp_text e ++ r) =
  Ok (RFloat (if neg then SFopp (exp_value fv e) else exp_value fv e), r).
Proof.
  intros [[F N] M] Pf Pe S I Hf. destruct (exp_stop e Pe r S) as (E1 & E2 & E3). unfold p_unsigned.
  rewrite int_digits_value; auto; [|lia|].
  2:{ destruct f; cbn [frac_text app]; [reflexivity|exact E1]. }
  cbn [bind].
  assert (Hm : (if at0 (frac_text f ++ exp_text e ++ r) =? 46 then
       do s' <- adv (frac_text f ++ exp_text e ++ r);
       let '(frac, div, s'') := frac_digits dzero (d_of_Z 1) s' in
       Ok (true, dadd (d_of_Z (value 0 ds)) (ddiv frac div), s'')
     else Ok (false, d_of_Z (value 0 ds), frac_text f ++ exp_text e ++ r)) =
     Ok (match f with None => false | _ => true end, fv, exp_text e ++ r)).
  { destruct f as [fs|]; cbn [frac_text app].
    - destruct Hf as (x & y & Hx & ->). change (at0 (46 :: fs ++ exp_text e ++ r) =? 46) with true. cbn iota.
      rewrite adv_cons by lia. cbn [bind]. now rewrite Hx.
    - subst fv. destruct (Z.eqb_spec (at0 (exp_text e ++ r)) 46); [congruence|]. reflexivity. }
  rewrite Hm. cbn [bind]. clear Hm Hf.
  destruct e as [[[m s] es]|]; cbn [exp_text exp_value].
  - destruct Pe as [Hmk [[Fe Ne] Me]]. destruct S as (S1 & S2 & S3 & S4 & S5 & S6).
    assert (Hm : ((at0 ((m :: sign_text s ++ es) ++ r) =? 101) || (at0 ((m :: sign_text s ++ es) ++ r) =? 69)) = true)
      by (unfold at0; cbn [app nth]; destruct Hmk as [-> | ->]; reflexivity).
    rewrite Hm. clear Hm. cbn [app]. rewrite adv_cons by (destruct Hmk; lia). cbn [bind]. rewrite <- app_assoc.
    destruct (digits_at0 es r (conj Fe Ne)) as (D1 & D2 & D3).
    destruct s; cbn [sign_text app].
    + destruct (Z.eqb_spec (at0 (es ++ r)) 45); [congruence|]. destruct (Z.eqb_spec (at0 (es ++ r)) 43); [congruence|]. cbn [orb bind].
      rewrite D1. cbn [negb]. rewrite int_digits_value by (auto; lia). reflexivity.
    + change (at0 (43 :: es ++ r)) with 43. cbn [Z.eqb Pos.eqb orb]. rewrite adv_cons by lia. cbn [bind].
      rewrite D1. cbn [negb]. rewrite int_digits_value by (auto; lia). reflexivity.
    + change (at0 (45 :: es ++ r)) with 45. cbn [Z.eqb Pos.eqb orb]. rewrite adv_cons by lia. cbn [bind].
      rewrite D1. cbn [negb]. rewrite int_digits_value by (auto; lia). reflexivity.
  - destruct S as (S1 & S2 & S3 & S4 & S5 & S6). cbn [app].
    destruct (Z.eqb_spec (at0 r) 101); [congruence|]. destruct (Z.eqb_spec (at0 r) 69); [congruence|]. cbn [orb bind].
    destruct f; [reflexivity|]. destruct I; congruence.
Qed.
Definition lit_value (s : sign) (fv : dbl) (e : option (Z * sign * list Z)) : dbl := flip s (exp_value fv e).
Lemma literal_read s ds f fv e r : int_part ds -> frac_part f -> exp_part e -> ends r -> inexact_literal f e ->
  (match f with None => fv = d_of_Z (value 0 ds) | Some fs => exists x y, frac_digits dzero (d_of_Z 1) (fs ++ exp_text e ++ r) = (x, y, exp_text e ++ r) /\
     fv = dadd (d_of_Z (value 0 ds)) (ddiv x y) end) ->
  parse_expr (literal s ds f e ++ r) = Ok (Some (RFloat (lit_value s fv e)), r).
Proof.
  intros Pi Pf Pe En I Hf. pose proof (ends_stop r En) as S.
  assert (E : p_expr 1 (literal s ds f e ++ r) = Ok (Some (RFloat (lit_value s fv e)), r)).
  2:{ rewrite (parse_expr_any 1); [exact E|]. rewrite E. congruence. }
  pose proof Pi as [[F N] M]. unfold literal. rewrite <- !app_assoc.
  destruct ds as [|c l]; [congruence|]. inversion F as [|? ? Dc Dl]; subst.
  pose proof (digit_facts c Dc) as (F1 & F2 & FF).
  destruct s; cbn [sign_text app].
  - change (c :: l ++ frac_text f ++ exp_text e ++ r) with ((c :: l) ++ frac_text f ++ exp_text e ++ r).
    remember ((c :: l) ++ frac_text f ++ exp_text e ++ r) as t eqn:Et.
    assert (A0 : at0 t = c) by (rewrite Et; reflexivity).
    assert (St : starts t).
    { unfold starts. rewrite A0. rewrite F2. repeat split; try lia. }
    cbn [p_expr]. rewrite (starts_skip _ St). rewrite !A0.
    assert (B1 : (at1 t =? 43) || (at1 t =? 45) = false).
    { assert (Q : at1 t <> 43 /\ at1 t <> 45).
      { rewrite Et. unfold at1. cbn [app nth]. destruct l as [|c2 l]; cbn [app].
        - destruct f as [fs|]; cbn [frac_text app nth]; [lia|]. destruct (exp_stop e Pe r S) as (_ & _ & X1 & X2). unfold at0 in *. tauto.
        - cbn [nth]. inversion Dl; subst. pose proof (digit_facts c2 ltac:(assumption)). lia. }
      destruct (Z.eqb_spec (at1 t) 43); [tauto|]. destruct (Z.eqb_spec (at1 t) 45); [tauto|]. reflexivity. }
    rewrite B1. neq. rewrite ?andb_false_r. cbn [andb].
    unfold p_number. rewrite A0. neq. rewrite F1. cbn [negb].
    rewrite Et. rewrite (p_unsigned_value false (c :: l) f fv e r) by auto. reflexivity.
  - change (43 :: c :: l ++ frac_text f ++ exp_text e ++ r) with (43 :: (c :: l) ++ frac_text f ++ exp_text e ++ r).
    set (t := (c :: l) ++ frac_text f ++ exp_text e ++ r).
    assert (St : starts (43 :: t)) by (unfold starts, at0; cbn; repeat split; try discriminate).
    cbn [p_expr]. rewrite (starts_skip _ St). change (at0 (43 :: t)) with 43. cbn [Z.eqb andb orb Pos.eqb].
    unfold p_number. change (at0 (43 :: t)) with 43. change (at1 (43 :: t)) with c. cbn [Z.eqb Pos.eqb]. rewrite F1. cbn [negb].
    rewrite adv_cons by lia. cbn [bind]. unfold t. rewrite (p_unsigned_value false (c :: l) f fv e r) by auto. reflexivity.
  - change (45 :: c :: l ++ frac_text f ++ exp_text e ++ r) with (45 :: (c :: l) ++ frac_text f ++ exp_text e ++ r).
    set (t := (c :: l) ++ frac_text f ++ exp_text e ++ r).
    assert (St : starts (45 :: t)) by (unfold starts, at0; cbn; repeat split; try discriminate).
    cbn [p_expr]. rewrite (starts_skip _ St). change (at0 (45 :: t)) with 45. cbn [Z.eqb andb orb Pos.eqb].
    unfold p_number. change (at0 (45 :: t)) with 45. change (at1 (45 :: t)) with c. cbn [Z.eqb Pos.eqb]. rewrite F1. cbn [negb].
    rewrite adv_cons by lia. cbn [bind]. unfold t. rewrite (p_unsigned_value true (c :: l) f fv e r) by auto. reflexivity.
Qed.
Lemma parse_of_expr t d : parse_expr t = Ok (Some d, []) -> parse t = Ok d.
Proof. intros H. unfold parse. rewrite H. reflexivity. Qed.

(** C199.  A literal with a decimal point or an exponent, of moderate length, reads as the
    double computed from its digits with one IEEE division (the fraction), one addition and
    one multiplication or division (the exponent); the integers and the powers of ten are exact. *)
Theorem c199_literal : forall s ds f e r, int_part ds -> frac_part f -> exp_part e -> inexact_literal f e -> moderate f e -> ends r ->
  parse_expr (literal s ds f e ++ r) = Ok (Some (RFloat (flip s (scaled (mantissa ds f) e))), r).
Proof.
  intros s ds f e r Pi Pf Pe I [Mf Me] En. pose proof (ends_stop r En) as S.
  rewrite (literal_read s ds f (mantissa ds f) e r); auto.
  - unfold lit_value. repeat f_equal. unfold exp_value, scaled. destruct e as [[[m s'] es]|]; [|reflexivity].
    destruct Pe as [_ [[Fe Ne] _]]. pose proof (value_ge es 0 Fe ltac:(lia)). rewrite mult_value by lia. destruct s'; reflexivity.
  - destruct f as [fs|]; [|reflexivity]. destruct Mf as [L V]. destruct (exp_stop e Pe r S) as (E1 & _).
    pose proof (frac_digits_value fs 0 0 (exp_text e ++ r) Pf ltac:(lia) V ltac:(cbn; lia) E1) as Q.
    do 2 eexists. split; [exact Q|]. reflexivity.
Qed.
(** A whole text. *)
Theorem c199_whole_text : forall s ds f e, int_part ds -> frac_part f -> exp_part e -> inexact_literal f e -> moderate f e ->
  parse (literal s ds f e) = Ok (RFloat (flip s (scaled (mantissa ds f) e))).
Proof.
  intros. apply parse_of_expr. rewrite <- (app_nil_r (literal s ds f e)). apply c199_literal; auto. now left.
Qed.

(** With integer part 0 and no exponent the only rounding is that of the division: the
    literal is the double nearest to its decimal value. *)
Lemma add_zero_l d : (forall x, d <> S754_zero x) -> ieee_add (S754_zero false) d = d.
Proof. intros N. destruct d as [b|b| |b m k]; try reflexivity. now elim (N b). Qed.
Lemma add_zero_r d : d <> S754_zero true -> ieee_add d (S754_zero false) = d.
Proof. intros N. destruct d as [[]|b| |b m k]; try reflexivity. congruence. Qed.
Lemma round_pos_sign m e l : binary_round_aux 53 1024 false m e l <> S754_zero true.
Proof.
  unfold binary_round_aux. destruct (shr_fexp 53 1024 m e l) as [a b]. destruct (shr_fexp 53 1024 _ b loc_Exact) as [a' b'].
  destruct (shr_m a'); [discriminate| |discriminate]. destruct (b' <=? 1024 - 53); discriminate.
Qed.
Lemma nearest_sign z : 0 <= z -> (exists m k, nearest z = S754_finite false m k) \/ nearest z = S754_zero false \/ nearest z = S754_infinity false \/ nearest z = S754_nan.
Proof.
  intros L. unfold nearest, binary_normalize. destruct z as [|p|p]; [auto| |lia].
  unfold binary_round, binary_round_aux. destruct (shl_align p 0 _) as [m k].
  destruct (shr_fexp 53 1024 (Z.pos m) k loc_Exact) as [a b]. destruct (shr_fexp 53 1024 _ b loc_Exact) as [a' b'].
  destruct (shr_m a'); auto. destruct (b' <=? 1024 - 53); eauto.
Qed.
Lemma quotient_sign a b : 0 <= a -> 0 <= b -> ieee_div (nearest a) (nearest b) <> S754_zero true.
Proof.
  intros A B. destruct (nearest_sign a A) as [(m & k & ->) | [-> | [-> | ->]]], (nearest_sign b B) as [(m' & k' & ->) | [-> | [-> | ->]]]; try (cbn; discriminate).
  cbn [ieee_div SFdiv xorb]. unfold ieee_div, SFdiv. destruct (SFdiv_core_binary 53 1024 _ _ _ _) as [[x y] z]. apply round_pos_sign.
Qed.
Lemma value_zero_pow fs : Forall (fun c => c = 48) fs -> value 0 fs = 0.
Proof. induction fs as [|c r IH]; cbn [value]; auto. intros F. inversion F; subst. cbn. auto. Qed.
Theorem c199_below_one : forall s ds fs, int_part ds -> value 0 ds = 0 -> Forall digit fs -> (length fs <= 22)%nat -> value 0 fs < 2 ^ 53 ->
  parse (literal s ds (Some fs) None) = Ok (RFloat (flip s (ieee_div (nearest (value 0 fs)) (nearest (10 ^ Z.of_nat (length fs)))))).
Proof.
  intros s ds fs Pi Z0 F L V. rewrite c199_whole_text; auto; [| cbn; auto | now left; discriminate | split; cbn; auto].
  repeat f_equal. cbn [scaled mantissa]. rewrite Z0. change (nearest 0) with (S754_zero false).
  pose proof (quotient_sign (value 0 fs) (10 ^ Z.of_nat (length fs)) (value_ge fs 0 F ltac:(lia)) ltac:(lia)) as Q.
  destruct (ieee_div _ _) as [[]|b| |b m k]; try reflexivity. congruence.
Qed.
(** An integer followed by a point and any number of zeros, up to 22, is that integer, rounded once. *)
Lemma quotient_zero n : (n <= 22)%nat -> ieee_div (nearest 0) (nearest (10 ^ Z.of_nat n)) = S754_zero false.
Proof. intros L. do 23 (destruct n as [|n]; [vm_compute; reflexivity|]). lia. Qed.
Theorem c199_integral : forall s ds fs, int_part ds -> Forall (fun c => c = 48) fs -> (length fs <= 22)%nat ->
  parse (literal s ds (Some fs) None) = Ok (RFloat (flip s (nearest (value 0 ds)))).
Proof.
  intros s ds fs Pi F L. pose proof (value_zero_pow fs F) as V. assert (Fd : Forall digit fs) by (eapply Forall_impl; [|exact F]; intros ? ->; unfold digit; lia).
  rewrite c199_whole_text; auto; [| cbn; auto | now left; discriminate | split; cbn; auto; rewrite V; lia].
  repeat f_equal. cbn [scaled mantissa]. rewrite V, quotient_zero by auto. apply add_zero_r.
  destruct (nearest_sign (value 0 ds) (value_ge ds 0 (proj1 (proj1 Pi)) ltac:(lia))) as [(m & k & ->) | [-> | [-> | ->]]]; discriminate.
Qed.
(* the hypotheses are met: -12.50e-3, 0.1, +7.000 *)
Example c199_live :
  literal Minus (bs "12") (Some (bs "50")) (Some (101, Minus, bs "3")) = bs "-12.50e-3" /\
  parse (bs "-12.50e-3") = Ok (RFloat (SFopp (ieee_div (ieee_add (nearest 12) (ieee_div (nearest 50) (nearest 100))) (nearest 1000)))) /\
  parse (bs "0.1") = Ok (RFloat (ieee_div (nearest 1) (nearest 10))) /\
  parse (bs "+7.000") = Ok (RFloat (nearest 7)).
Proof. repeat split; vm_compute; reflexivity. Qed.

(** C200.  A literal is not always the double nearest to its decimal value.  (The division
    is rounded, then the sum is rounded again.) *)
Theorem c200_double_rounding_refuted :
  (exists d, parse (bs "1.14") = Ok (RFloat d) /\ not_nearest d (114 # 100)) /\
  (exists d, parse (bs "2.28") = Ok (RFloat d) /\ not_nearest d (228 # 100)).
Proof.
  assert (G : forall t d q d', parse t = Ok (RFloat d) -> a_double d' -> (Qabs (rational d' - q) < Qabs (rational d - q))%Q ->
     exists d, parse t = Ok (RFloat d) /\ not_nearest d q) by (intros t d q d' H1 H2 H3; exists d; split; auto; now exists d').
  split.
  - eapply (G _ _ _ (ieee_div (nearest 114) (nearest 100))); vm_compute; reflexivity.
  - eapply (G _ _ _ (ieee_div (nearest 228) (nearest 100))); vm_compute; reflexivity.
Qed.
(** Exponents above 308: the power of ten overflows.  Zero with such an exponent is not a
    number, and a negative exponent of that size gives zero even for values that doubles can express. *)
Lemma iter_inf x : Z.iter x (fun m => dmul m (d_of_Z 10)) (S754_infinity false) = S754_infinity false.
Proof.
  destruct x as [|p|p]; cbn [Z.iter]; auto.
  apply (Pos.iter_invariant p _ (fun m => dmul m (d_of_Z 10)) (fun d => d = S754_infinity false)); auto. intros y ->. reflexivity.
Qed.
Lemma iter_309 x : 309 <= x -> Z.iter x (fun m => dmul m (d_of_Z 10)) (d_of_Z 1) = S754_infinity false.
Proof.
  intros L. assert (E : Z.iter 309 (fun m => dmul m (d_of_Z 10)) (d_of_Z 1) = S754_infinity false) by (vm_compute; reflexivity).
  destruct (Z.eq_dec x 309) as [-> |N]; [exact E|].
  destruct x as [|p|p]; [lia| |lia]. cbn [Z.iter] in *. replace p with ((p - 309) + 309)%positive by lia. rewrite Pos.iter_add, E.
  apply (iter_inf (Z.pos (p - 309))).
Qed.
Lemma big_exponent s ds es k m : int_part ds -> int_part es -> 309 <= value 0 es -> m = 101 \/ m = 69 ->
  parse (literal s ds None (Some (m, k, es))) =
  Ok (RFloat (flip s (match k with Minus => ddiv (d_of_Z (value 0 ds)) (S754_infinity false) | _ => dmul (d_of_Z (value 0 ds)) (S754_infinity false) end))).
Proof.
  intros Pi Pe L M. apply parse_of_expr. rewrite <- (app_nil_r (literal _ _ _ _)).
  rewrite (literal_read s ds None (d_of_Z (value 0 ds)) (Some (m, k, es)) []); auto; try (cbn; auto; fail).
  - unfold lit_value, exp_value. rewrite iter_309 by auto. reflexivity.
  - now left.
  - right. discriminate.
Qed.
Theorem c200_big_exponent_refuted : forall s ds es m, int_part ds -> int_part es -> 309 <= value 0 es -> m = 101 \/ m = 69 -> value 0 ds = 0 ->
  parse (literal s ds None (Some (m, NoSign, es))) = Ok (RFloat S754_nan).
Proof. intros s ds es m Pi Pe L M Z0. rewrite big_exponent, Z0 by auto. destruct s; reflexivity. Qed.
Theorem c200_small_exponent_refuted : exists d, parse (bs "1234567e-310") = Ok (RFloat d) /\ not_nearest d (1234567 # (10 ^ 310)).
Proof.
  exists (S754_zero false). split; [vm_compute; reflexivity|]. exists (S754_finite false 1 (-1074)). split; vm_compute; reflexivity.
Qed.
(** A fraction of 310 or more digits: both the fraction and its divisor overflow. *)
Lemma frac_inf : forall fs, Forall digit fs -> frac_digits (S754_infinity false) (S754_infinity false) fs = (S754_infinity false, S754_infinity false, []).
Proof.
  induction fs as [|c r IH]; intros F; cbn [frac_digits]; auto. inversion F as [|? ? D F']; subst. rewrite (proj2 (isdigit_iff c) D).
  replace (dadd (dmul (S754_infinity false) (d_of_Z 10)) (d_of_Z (c - 48))) with (S754_infinity false). 
  - change (dmul (S754_infinity false) (d_of_Z 10)) with (S754_infinity false). auto.
  - unfold digit in D. change (dmul (S754_infinity false) (d_of_Z 10)) with (S754_infinity false).
    destruct (nearest_sign (c - 48) ltac:(lia)) as [(x & k & H) | [H | [H | H]]]; unfold nearest in H; unfold d_of_Z, prec, emax; rewrite ?H; try reflexivity.
    exfalso. assert (Q : c = 48 \/ c = 49 \/ c = 50 \/ c = 51 \/ c = 52 \/ c = 53 \/ c = 54 \/ c = 55 \/ c = 56 \/ c = 57) by lia.
    repeat (destruct Q as [-> | Q]; [revert H; vm_compute; discriminate|]). subst. revert H; vm_compute; discriminate.
Qed.
Lemma frac_app : forall a x y b, Forall digit a -> frac_digits x y (a ++ b) = let '(x', y', _) := frac_digits x y a in frac_digits x' y' b.
Proof.
  induction a as [|c a IH]; intros x y b F; cbn [app frac_digits]; auto. inversion F as [|? ? D F']; subst. rewrite (proj2 (isdigit_iff c) D). auto.
Qed.
Theorem c200_long_fraction_refuted : forall s ds fs, int_part ds -> Forall digit fs ->
  parse (literal s ds (Some (repeat 49 310 ++ fs)) None) = Ok (RFloat S754_nan).
Proof.
  intros s ds fs Pi F. apply parse_of_expr. rewrite <- (app_nil_r (literal _ _ _ _)).
  assert (R : Forall digit (repeat 49 310)) by (apply Forall_forall; intros x H; apply repeat_spec in H; subst; unfold digit; lia).
  assert (E : frac_digits dzero (d_of_Z 1) (repeat 49 310) = (S754_infinity false, S754_infinity false, [])) by (vm_compute; reflexivity).
  revert R E. generalize (repeat 49 310). intros big R E.
  rewrite (literal_read s ds (Some (big ++ fs)) (dadd (d_of_Z (value 0 ds)) (ddiv (S754_infinity false) (S754_infinity false))) None []); auto.
  - unfold lit_value, exp_value. change (ddiv _ _) with S754_nan. replace (dadd (d_of_Z (value 0 ds)) S754_nan) with S754_nan by (destruct (d_of_Z (value 0 ds)); reflexivity).
    destruct s; reflexivity.
  - cbn. apply Forall_app. auto.
  - exact Logic.I.
  - now left.
  - left. discriminate.
  - do 2 eexists. split; [|reflexivity]. cbn [exp_text app]. rewrite app_nil_r, frac_app, E by auto. now apply frac_inf.
Qed.
