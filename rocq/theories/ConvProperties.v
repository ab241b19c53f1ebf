(** C205, C206: conversions between C values and Scheme values. *)
From Coq Require Import SpecFloat Lia.
From Verif Require Import Base NumModel NumSpec2 ConvModel.
Local Open Scope list_scope.
Local Open Scope Z_scope.

Definition an_int (z : Z) : Prop := - 2 ^ 31 <= z < 2 ^ 31.
Definition a_char (c : Z) : Prop := -128 <= c < 128.
(* a C string: bytes without NUL, and their terminator *)
Definition c_string (s tail : list Z) : list Z := s ++ 0 :: tail.

Lemma to_int_id z : an_int z -> to_int z = z.
Proof. unfold an_int, to_int. intros R. rewrite Z.mod_small by lia. lia. Qed.
Lemma strlen_c s tail : ~ In 0 s -> strlen (c_string s tail) = Ok (Z.of_nat (length s)).
Proof.
  unfold c_string. induction s as [|c s IH]; intros N; [reflexivity|]. cbn [app strlen length]. cbn in N.
  destruct (Z.eqb_spec c 0); [subst; tauto|]. rewrite IH by tauto. cbn [bind]. f_equal. lia.
Qed.
Lemma copy_firstn buf n : 0 <= n <= Z.of_nat (length buf) -> copy buf n = Ok (firstn (Z.to_nat n) buf).
Proof.
  intros R. unfold copy. destruct (Z.eqb_spec n (-1)); [lia|]. destruct (Z.ltb_spec n 0); [lia|]. destruct (Z.ltb_spec (Z.of_nat (length buf)) n); [lia|]. reflexivity.
Qed.
Lemma firstn_prefix (s t : list Z) : firstn (Z.to_nat (Z.of_nat (length s))) (s ++ t) = s.
Proof. rewrite Nat2Z.id, firstn_app, Nat.sub_diag, firstn_all. cbn. apply app_nil_r. Qed.

(** C205.  C numbers, characters and booleans come back unchanged. *)
Theorem c205_bool : forall b, scm_to_bool (bool_to_scm b) = Ok b.
Proof. reflexivity. Qed.
Theorem c205_int : forall z, an_int z -> scm_to_int (int_to_scm z) = Ok z.
Proof. intros z R. cbn. now rewrite to_int_id. Qed.
Theorem c205_char : forall c, a_char c -> scm_to_char (scm_from_char c) = c.
Proof.
  unfold a_char. intros c R. cbn. unfold signed_char. destruct (Z.ltb_spec (c mod 256) 128) as [H|H].
  - destruct (Z.leb_spec 0 c); [rewrite Z.mod_small by lia; lia|]. replace (c mod 256) with (c + 256) in * by (rewrite <- (Z.mod_add c 1 256) by lia; rewrite Z.mod_small; lia). lia.
  - destruct (Z.leb_spec 0 c); [rewrite Z.mod_small in H by lia; lia|]. replace (c mod 256) with (c + 256) in * by (rewrite <- (Z.mod_add c 1 256) by lia; rewrite Z.mod_small; lia). lia.
Qed.
(** Every Scheme number is converted to the double the arithmetic uses for it. *)
Theorem c205_double : forall d z n m,
  scm_to_double (scm_from_double d) = d /\ scm_to_double (CNum z) = nearest z /\ scm_to_double (CRat n m) = ieee_div (nearest n) (nearest m).
Proof. intros. repeat split; reflexivity. Qed.
(** A string made from the first n bytes at an address holds those bytes; the length
    (size_t)-1 takes the bytes up to the first NUL.  Symbols likewise. *)
Theorem c205_from_bytes : forall buf n, 0 <= n <= Z.of_nat (length buf) -> n < 2 ^ 31 ->
  scm_from_locale_stringn (Some buf) n = Ok (CStr (firstn (Z.to_nat n) buf)) /\
  scm_from_locale_symboln (Some buf) n = Ok (CSym (firstn (Z.to_nat n) buf)).
Proof.
  intros buf n R L. unfold scm_from_locale_stringn, scm_from_locale_symboln, scm_from_c_string, size_max. destruct (Z.eqb_spec n (2 ^ 64 - 1)); [lia|]. cbn [bind].
  rewrite to_int_id by (unfold an_int; lia). rewrite copy_firstn by lia. split; reflexivity.
Qed.
Theorem c205_from_c_string : forall s tail, ~ In 0 s -> Z.of_nat (length s) < 2 ^ 31 ->
  scm_from_locale_stringn (Some (c_string s tail)) (2 ^ 64 - 1) = Ok (CStr s) /\
  scm_from_locale_symbol (Some (c_string s tail)) = Ok (CSym s) /\
  scm_from_locale_symboln (Some (c_string s tail)) (2 ^ 64 - 1) = Ok (CSym s).
Proof.
  intros s tail N L. unfold scm_from_locale_stringn, scm_from_locale_symbol, scm_from_locale_symboln, scm_from_c_string.
  rewrite (strlen_c s tail N). change (2 ^ 64 - 1 =? size_max) with true. cbn iota. cbn [bind].
  rewrite to_int_id by (unfold an_int; lia). unfold c_string. rewrite copy_firstn by (rewrite app_length; lia). rewrite firstn_prefix. repeat split; reflexivity.
Qed.
(** A Scheme string gives all its bytes and their number; as a C string it gives its bytes
    and a terminator if it contains no NUL, and is an error if it does.  So strings survive the way there and back. *)
Lemma strlen_nul : forall a b, ~ In 0 a -> strlen ((a ++ 0 :: b) ++ [0]) = Ok (Z.of_nat (length a)).
Proof. intros a b N. rewrite <- app_assoc. cbn [app]. exact (strlen_c a (b ++ [0]) N). Qed.
Lemma nul_split : forall s : list Z, In 0 s -> exists a b, s = a ++ 0 :: b /\ ~ In 0 a.
Proof.
  induction s as [|c s IH]; intros H; [destruct H|]. destruct (Z.eq_dec c 0) as [-> |Nc]; [exists [], s; split; [reflexivity|intros []]|].
  destruct H as [H|H]; [congruence|]. destruct (IH H) as (a & b & -> & N). exists (c :: a), b. split; [reflexivity|]. cbn. tauto.
Qed.
Theorem c205_to_bytes : forall s, scm_to_locale_stringn (Some (CStr s)) true = Ok (s, Some (Z.of_nat (length s))) /\
  (~ In 0 s -> scm_to_locale_stringn (Some (CStr s)) false = Ok (s ++ [0], None)) /\
  (In 0 s -> scm_to_locale_stringn (Some (CStr s)) false = Err).
Proof.
  intros s. split; [reflexivity|]. unfold scm_to_locale_stringn. split; intros H.
  - change (s ++ [0]) with (c_string s []). rewrite (strlen_c s [] H). cbn [bind]. now rewrite Z.eqb_refl.
  - destruct (nul_split s H) as (a & b & -> & N). rewrite strlen_nul by auto. cbn [bind].
    destruct (Z.eqb_spec (Z.of_nat (length a)) (Z.of_nat (length (a ++ 0 :: b)))) as [E|E]; [|reflexivity]. rewrite app_length in E. cbn in E. lia.
Qed.
Theorem c205_round_trip : forall s tail, ~ In 0 s -> Z.of_nat (length s) < 2 ^ 31 ->
  (do v <- scm_from_locale_stringn (Some (c_string s tail)) (2 ^ 64 - 1); scm_to_locale_stringn (Some v) false) = Ok (s ++ [0], None) /\
  (do v <- scm_from_locale_symbol (Some (c_string s tail)); do w <- scm_symbol_to_string v; scm_to_locale_stringn (Some w) false) = Ok (s ++ [0], None).
Proof.
  intros s tail N L. destruct (c205_from_c_string s tail N L) as (E1 & E2 & _). rewrite E1, E2. cbn [bind scm_symbol_to_string].
  destruct (c205_to_bytes s) as (_ & H & _). split; exact (H N).
Qed.
(** The conversions to bool and int fail an assertion on other objects; those to double and char give 0. *)
Theorem c205_other_kinds : forall v, ((forall b, v <> CBoo b) -> scm_to_bool v = Abort) /\ ((forall z, v <> CNum z) -> scm_to_int v = Abort) /\
  ((forall z, v <> CNum z) -> (forall n m, v <> CRat n m) -> (forall d, v <> CFlo d) -> scm_to_double v = SpecFloat.S754_zero false) /\
  ((forall b, v <> CChr b) -> scm_to_char v = 0).
Proof. intro v. destruct v; repeat split; intros; try reflexivity; exfalso; match goal with H : forall _, _ <> _ |- _ => solve [exact (H _ eq_refl)] | H : forall _ _, _ <> _ |- _ => solve [exact (H _ _ eq_refl)] end. Qed.
(** Null pointers and objects that are not strings are errors. *)
Theorem c205_errors : forall n v, scm_from_locale_stringn None n = Err /\ scm_from_locale_symboln None n = Err /\ scm_from_locale_symbol None = Err /\
  (forall w, scm_to_locale_stringn None w = Err) /\ ((forall s, v <> CStr s) -> forall w, scm_to_locale_stringn (Some v) w = Err).
Proof. intros n v. do 4 (split; [reflexivity|]). intros N w. destruct v; try reflexivity. now elim (N s). Qed.
Example c205_live : scm_from_locale_stringn (Some [104; 105; 0; 33]) (2 ^ 64 - 1) = Ok (CStr [104; 105]) /\
  scm_from_locale_stringn (Some [104; 105; 0; 33]) 4 = Ok (CStr [104; 105; 0; 33]) /\ scm_to_locale_stringn (Some (CStr [104; 0])) false = Err.
Proof. repeat split; reflexivity. Qed.

(** C206.  A value that does not fit is not reported. *)
Theorem c206_int_refuted : forall z, i64_min <= z <= i64_max -> ~ an_int z ->
  exists k, scm_to_int (CNum z) = Ok k /\ k <> z /\ an_int k.
Proof.
  intros z _ N. exists (to_int z). split; [reflexivity|]. unfold an_int in *. unfold to_int. pose proof (Z.mod_pos_bound (z + 2 ^ 31) (2 ^ 32) ltac:(lia)). split; lia.
Qed.
Theorem c206_not_a_number_refuted : forall v, (forall z, v <> CNum z) -> (forall d, v <> CFlo d) -> (forall n m, v <> CRat n m) -> scm_to_double v = S754_zero false.
Proof. intros [] A B C; try reflexivity; exfalso; [eapply A|eapply B|eapply C]; reflexivity. Qed.
Theorem c206_not_a_char_refuted : forall v, (forall b, v <> CChr b) -> scm_to_char v = scm_to_char (CChr 0).
Proof. intros [] A; try reflexivity. now elim (A b). Qed.
(** A length of 2^32 + n makes a string of n bytes. *)
Theorem c206_length_refuted : forall buf n, 0 <= n <= Z.of_nat (length buf) -> n < 2 ^ 31 ->
  scm_from_locale_stringn (Some buf) (2 ^ 32 + n) = Ok (CStr (firstn (Z.to_nat n) buf)).
Proof.
  intros buf n R L. unfold scm_from_locale_stringn, scm_from_c_string, size_max. destruct (Z.eqb_spec (2 ^ 32 + n) (2 ^ 64 - 1)); [lia|]. cbn [bind].
  replace (to_int (2 ^ 32 + n)) with n. { rewrite copy_firstn by lia. reflexivity. }
  unfold to_int. replace (2 ^ 32 + n + 2 ^ 31) with (n + 2 ^ 31 + 1 * 2 ^ 32) by lia. rewrite Z.mod_add by lia. rewrite Z.mod_small by lia. lia.
Qed.
