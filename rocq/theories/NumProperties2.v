(** C06, continued: the sign predicates and max/min on inexact numbers and ratios. *)
From Coq Require Import SpecFloat Lia.
From Verif Require Import Base NumModel NumSpec NumProofs NumFloat NumProperties.
Local Open Scope list_scope.

(** The sign of a double, independently of the comparison operators: NaN has none. *)
Inductive dsign := SNeg | SZero | SPos | SNone.
Definition sign_of (d : dbl) : dsign :=
  match d with
  | S754_zero _ => SZero
  | S754_infinity true | S754_finite true _ _ => SNeg
  | S754_infinity false | S754_finite false _ _ => SPos
  | S754_nan => SNone
  end.
(** The order of the doubles that are not NaN: by the triple sign class, exponent,
    mantissa (both zeros are the same number). *)
Definition key (d : dbl) : Z * Z * Z :=
  match d with
  | S754_infinity true => (-2, 0, 0)
  | S754_finite true m e => (-1, - e, - Z.pos m)
  | S754_zero _ => (0, 0, 0)
  | S754_finite false m e => (1, e, Z.pos m)
  | S754_infinity false => (2, 0, 0)
  | S754_nan => (0, 0, 0)
  end.
Definition key_le (a b : Z * Z * Z) : Prop :=
  let '(a1, a2, a3) := a in let '(b1, b2, b3) := b in
  a1 < b1 \/ (a1 = b1 /\ (a2 < b2 \/ (a2 = b2 /\ a3 <= b3))).
Definition notnan (d : dbl) : Prop := d <> S754_nan.

(** zero?, positive? and negative? of a float answer by its sign. *)
Theorem c06_sign_float : forall d,
  is_zero (VFloat d) = Ok (VBool (match sign_of d with SZero => true | _ => false end)) /\
  is_positive (VFloat d) = Ok (VBool (match sign_of d with SPos => true | _ => false end)) /\
  is_negative (VFloat d) = Ok (VBool (match sign_of d with SNeg => true | _ => false end)).
Proof. intros [[]|[]| |[] m e]; repeat split; reflexivity. Qed.
Print Assumptions c06_sign_float.
(** On a ratio zero? answers, but positive? and negative? refuse it as not being a
    number; on anything that is not a number all three raise an error. *)
Theorem c135_sign_ratio_refuted : forall n d,
  (exists b, is_zero (VRatio n d) = Ok (VBool b)) /\ is_positive (VRatio n d) = Err /\ is_negative (VRatio n d) = Err.
Proof. intros n d. split; [eexists; reflexivity|split; reflexivity]. Qed.
Print Assumptions c135_sign_ratio_refuted.
Theorem c06_sign_rejects : forall v, is_number v = false -> is_zero v = Err /\ is_positive v = Err /\ is_negative v = Err.
Proof. intros [z|n d|f|b|] H; try discriminate H; repeat split. Qed.
Print Assumptions c06_sign_rejects.
Example c06_ex_sign : is_zero (VRatio 1 2) = Ok (VBool false) /\ is_zero (VFloat (S754_zero true)) = Ok (VBool true) /\
  is_negative (VFloat (S754_zero true)) = Ok (VBool false) /\ is_zero (VFloat S754_nan) = Ok (VBool false).
Proof. vm_compute. auto. Qed.

(** ** max and min with inexact arguments *)
Lemma cmp_key a b : notnan a -> notnan b ->
  (dlt a b = true <-> ~ key_le (key b) (key a)) /\ (dgt a b = true <-> ~ key_le (key a) (key b)).
Proof.
  unfold notnan. intros NA NB.
  destruct a as [sa|sa| |sa ma ea]; try congruence; destruct b as [sb|sb| |sb mb eb]; try congruence;
    try destruct sa; try destruct sb; unfold dlt, dgt, key, key_le, SFcompare;
    try (split; split; intros; (discriminate || lia || reflexivity)).
  - destruct (Z.compare_spec ea eb); [|split; split; intros; (discriminate || lia || reflexivity)|split; split; intros; (discriminate || lia || reflexivity)].
    subst eb. change (Pos.compare_cont Eq ma mb) with (Pos.compare ma mb). destruct (Pos.compare_spec ma mb); cbn [CompOpp]; split; split; intros; (discriminate || lia || reflexivity).
  - destruct (Z.compare_spec ea eb); [|split; split; intros; (discriminate || lia || reflexivity)|split; split; intros; (discriminate || lia || reflexivity)].
    subst eb. change (Pos.compare_cont Eq ma mb) with (Pos.compare ma mb). destruct (Pos.compare_spec ma mb); cbn [CompOpp]; split; split; intros; (discriminate || lia || reflexivity).
Qed.
Lemma key_le_refl k : key_le k k. Proof. destruct k as [[a b] c]. cbn. lia. Qed.
Lemma key_le_trans a b c : key_le a b -> key_le b c -> key_le a c.
Proof. destruct a as [[a1 a2] a3], b as [[b1 b2] b3], c as [[c1 c2] c3]. cbn. lia. Qed.
Lemma key_le_total a b : ~ key_le a b -> key_le b a.
Proof. destruct a as [[a1 a2] a3], b as [[b1 b2] b3]. cbn. lia. Qed.
Lemma key_le_dec a b : key_le a b \/ ~ key_le a b.
Proof. destruct a as [[a1 a2] a3], b as [[b1 b2] b3]. cbn. lia. Qed.

Lemma loop_all better : forall args best ai, forallb is_number args = true -> exists b,
  extremum_loop better best ai args = Ok (b, ai && forallb is_num args) /\ (b = best \/ exists a, In a args /\ b = to_double a).
Proof.
  induction args as [|a args IH]; intros best ai H; cbn [extremum_loop forallb] in *.
  - exists best. rewrite andb_true_r. auto.
  - apply andb_true_iff in H as [Ha H].
    assert (E : is_num a || is_float a || is_ratio a = true) by (destruct a; try discriminate; reflexivity). rewrite E.
    destruct (IH (if better (to_double a) best then to_double a else best) (if is_num a then ai else false) H) as (b & -> & Q).
    exists b. split.
    + f_equal. f_equal. destruct (is_num a); cbn [andb]; [reflexivity|now rewrite andb_false_r].
    + destruct Q as [-> |(x & I & ->)]; [|right; exists x; auto with datatypes].
      destruct (better (to_double a) best); [right; exists a; auto with datatypes|auto].
Qed.
Lemma loop_best better (le : Z * Z * Z -> Z * Z * Z -> Prop) :
  (forall a b, notnan a -> notnan b -> (better a b = true <-> ~ le (key a) (key b))) -> (forall k, le k k) ->
  (forall a b c, le a b -> le b c -> le a c) -> (forall a b, ~ le a b -> le b a) -> (forall a b, le a b \/ ~ le a b) ->
  forall args best ai b ai', extremum_loop better best ai args = Ok (b, ai') -> notnan best -> Forall (fun a => notnan (to_double a)) args ->
  notnan b /\ le (key best) (key b) /\ forall a, In a args -> le (key (to_double a)) (key b).
Proof.
  intros HB HR HT HC HD. induction args as [|a args IH]; intros best ai b ai' E NB NA; cbn [extremum_loop] in E.
  - injection E as <- <-. split; [assumption|]. split; [apply HR|]. intros a [].
  - destruct (_ || _); [|discriminate]. inversion NA as [|? ? N1 N2]; subst.
    assert (NX : notnan (if better (to_double a) best then to_double a else best)) by (destruct (better _ _); assumption).
    destruct (IH _ _ _ _ E NX N2) as (P & Q & R). split; [exact P|].
    destruct (better (to_double a) best) eqn:B.
    + apply HB in B; try assumption. split; [eapply HT; [apply HC, B|exact Q]|].
      intros x [<-|I]; auto.
    + split; [exact Q|]. intros x [<-|I]; [|auto]. eapply HT; [|exact Q].
      destruct (HD (key (to_double a)) (key best)) as [|G]; [assumption|]. apply (HB _ _ N1 NB) in G. congruence.
Qed.
(** If some argument of max is inexact or a ratio, the result is a float, it is
    the double of one of the arguments, and no argument is above it. *)
Theorem c124_max_inexact : forall a args, forallb is_number (a :: args) = true -> forallb is_num (a :: args) = false ->
  exists f, scm_max (a :: args) = Ok (VFloat f) /\ (exists x, In x (a :: args) /\ f = to_double x) /\
    (Forall (fun x => notnan (to_double x)) (a :: args) -> forall x, In x (a :: args) -> key_le (key (to_double x)) (key f)).
Proof.
  intros a args H M. cbn [forallb] in *. apply andb_true_iff in H as [Ha H].
  assert (E : is_num a || is_float a || is_ratio a = true) by (destruct a; try discriminate; reflexivity).
  destruct (loop_all dgt args (to_double a) (is_num a) H) as (f & L & Q). exists f. unfold scm_max, extremum. rewrite E, L. cbn [bind]. rewrite M.
  split; [reflexivity|]. split.
  - destruct Q as [-> |(x & I & ->)]; [exists a|exists x]; auto with datatypes.
  - intros N. inversion N; subst.
    destruct (loop_best dgt key_le (fun a b A B => proj2 (cmp_key a b A B)) key_le_refl key_le_trans key_le_total key_le_dec _ _ _ _ _ L) as (_ & K1 & K2); auto.
    intros x [<-|I]; auto.
Qed.
Print Assumptions c124_max_inexact.
Theorem c124_min_inexact : forall a args, forallb is_number (a :: args) = true -> forallb is_num (a :: args) = false ->
  exists f, scm_min (a :: args) = Ok (VFloat f) /\ (exists x, In x (a :: args) /\ f = to_double x) /\
    (Forall (fun x => notnan (to_double x)) (a :: args) -> forall x, In x (a :: args) -> key_le (key f) (key (to_double x))).
Proof.
  intros a args H M. cbn [forallb] in *. apply andb_true_iff in H as [Ha H].
  assert (E : is_num a || is_float a || is_ratio a = true) by (destruct a; try discriminate; reflexivity).
  destruct (loop_all dlt args (to_double a) (is_num a) H) as (f & L & Q). exists f. unfold scm_min, extremum. rewrite E, L. cbn [bind]. rewrite M.
  split; [reflexivity|]. split.
  - destruct Q as [-> |(x & I & ->)]; [exists a|exists x]; auto with datatypes.
  - intros N. inversion N; subst.
    destruct (loop_best dlt (fun a b => key_le b a) (fun a b A B => proj1 (cmp_key a b A B)) key_le_refl (fun a b c A B => key_le_trans _ _ _ B A)
      (fun a b A => key_le_total _ _ A) (fun a b => key_le_dec b a) _ _ _ _ _ L) as (_ & K1 & K2); auto.
    intros x [<-|I]; auto.
Qed.
Print Assumptions c124_min_inexact.
(** An argument that is not a number is an error for max and min, wherever it stands. *)
Theorem c124_extremum_rejects : forall args, forallb is_number args = false -> scm_max args = Err /\ scm_min args = Err.
Proof.
  assert (G : forall better args best ai, forallb is_number args = false -> extremum_loop better best ai args = Err).
  { induction args as [|a args IH]; intros best ai H; cbn [forallb] in H; [discriminate|]. cbn [extremum_loop].
    destruct a; cbn [is_num is_float is_ratio orb]; try reflexivity; apply IH, H. }
  assert (K : forall better args, forallb is_number args = false -> extremum better args = Err).
  { intros better [|a args] H; [discriminate|]. unfold extremum. cbn [forallb] in H.
    destruct a; cbn [is_num is_float is_ratio orb]; try reflexivity; now rewrite G by exact H. }
  intros args H. split; apply K, H.
Qed.
Print Assumptions c124_extremum_rejects.
Example c06_ex_inexact : forallb is_number [VInt 3; VFloat (d_of_Z 2); VRatio 7 2] = true /\
  scm_max [VInt 3; VFloat (d_of_Z 2); VRatio 7 2] = Ok (VFloat (ddiv (d_of_Z 7) (d_of_Z 2))) /\
  scm_min [VInt 3; VFloat (d_of_Z 2); VRatio 7 2] = Ok (VFloat (d_of_Z 2)) /\
  scm_max [VInt 3; VFloat (d_of_Z 2)] = Ok (VFloat (d_of_Z 3)).
Proof. vm_compute. auto. Qed.
