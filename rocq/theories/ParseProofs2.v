(** Reading back what write prints. *)
From Coq Require Import Lia String SpecFloat.
From Verif Require Import Base NumModel HeapModel StringModel ParseModel PrintModel ParseSpec ParseProofs.
Local Open Scope list_scope.

(** ** Independence of the call bound *)
Lemma p_expr_mono n m s x : p_expr n s = Ok x -> (n <= m)%nat -> p_expr m s = Ok x.
Proof. intros H L. induction L; auto. destruct (proj1 (mono_all m) s) as [Q|Q]; congruence. Qed.
Lemma p_quote_mono n m s x : p_quote n s = Ok x -> (n <= m)%nat -> p_quote m s = Ok x.
Proof. intros H L. induction L; auto. destruct (proj1 (proj2 (mono_all m)) s) as [Q|Q]; congruence. Qed.
Lemma p_elems_mono n m s x : p_elems n s = Ok x -> (n <= m)%nat -> p_elems m s = Ok x.
Proof. intros H L. induction L; auto. destruct (proj1 (proj2 (proj2 (proj2 (mono_all m)))) s) as [Q|Q]; congruence. Qed.
Lemma p_vec_mono n m s x : p_vec n s = Ok x -> (n <= m)%nat -> p_vec m s = Ok x.
Proof. intros H L. induction L; auto. destruct (proj2 (proj2 (proj2 (proj2 (mono_all m)))) s) as [Q|Q]; congruence. Qed.
Lemma p_expr_le n m s : p_expr n s <> Fuel -> (n <= m)%nat -> p_expr m s = p_expr n s.
Proof. intros H L. induction L; auto. destruct (proj1 (mono_all m) s) as [Q|Q]; congruence. Qed.
Lemma parse_expr_any n s : p_expr n s <> Fuel -> parse_expr s = p_expr n s.
Proof.
  intros H. assert (T : parse_expr s <> Fuel).
  { intros Q. unfold parse_expr in Q. destruct (inv_all (parse_fuel s)) as [I _]. specialize (I s). rewrite Q in I. cbn in I. unfold parse_fuel in I. lia. }
  unfold parse_expr in *. destruct (Nat.le_ge_cases n (parse_fuel s)) as [L|L].
  - now apply p_expr_le.
  - symmetry. now apply p_expr_le.
Qed.

(** ** Delimiters and first characters *)
Definition delim (r : list Z) : Prop := r = [] \/ exists k, r = 32 :: k \/ r = 41 :: k.
Lemma delim_at0 r : delim r -> at0 r = 0 \/ at0 r = 32 \/ at0 r = 41.
Proof. intros [-> | (k & [-> | ->])]; cbn; auto. Qed.
Lemma delim_cases r (P : list Z -> Prop) : delim r -> P [] -> (forall k, P (32 :: k)) -> (forall k, P (41 :: k)) -> P r.
Proof. intros [-> | (k & [-> | ->])]; auto. Qed.
Definition starts (s : list Z) : Prop :=
  at0 s <> 0 /\ isspace (at0 s) = false /\ at0 s <> 59 /\ at0 s <> 41 /\ at0 s <> 44 /\ (at0 s = 46 -> dot_symbol s = true).
Lemma starts_skip s : starts s -> skip s = s.
Proof.
  intros (N & A & B & _). destruct s as [|c r]; [reflexivity|]. unfold at0 in *. cbn in A, B. cbn [skip_ws]. rewrite A.
  destruct (Z.eqb_spec c 59); [congruence|reflexivity].
Qed.
Lemma starts_skip_space s : starts s -> skip (32 :: s) = s.
Proof. intros H. cbn [skip_ws]. change (isspace 32) with true. cbn. now apply starts_skip. Qed.

Lemma beq_iff : forall a b, beq a b = true <-> a = b.
Proof.
  induction a as [|x a IH]; intros [|y b]; cbn; split; intros H; try congruence.
  - apply andb_true_iff in H. destruct H as [E H]. apply Z.eqb_eq in E. apply IH in H. congruence.
  - injection H as -> ->. rewrite Z.eqb_refl. cbn. now apply IH.
Qed.

(** ** Integers *)
Lemma int_digits_end acc r : delim r -> int_digits acc r = Ok (acc, r).
Proof. intros D. apply (delim_cases r (fun r => int_digits acc r = Ok (acc, r)) D); reflexivity. Qed.
Lemma dec_loop_app : forall n z acc, dec_loop n z acc = dec_loop n z [] ++ acc.
Proof.
  induction n as [|n IH]; intros z acc; cbn [dec_loop]; [reflexivity|].
  destruct (z <? 10); [reflexivity|]. rewrite IH, (IH _ [_]). now rewrite <- app_assoc.
Qed.
Lemma i64_ok z : i64_min <= z <= i64_max -> i64 z = Ok z.
Proof. intros [A B]. unfold i64, in64. apply Z.leb_le in A. apply Z.leb_le in B. now rewrite A, B. Qed.
Lemma dec_loop_read : forall n z r, 0 <= z <= i64_max -> z < 2 ^ Z.of_nat n -> (0 < n)%nat ->
  int_digits 0 (dec_loop n z [] ++ r) = int_digits z r.
Proof.
  induction n as [|n IH]; intros z r R L N; [lia|]. cbn [dec_loop].
  destruct (Z.ltb_spec z 10).
  - cbn [app int_digits]. replace (isdigit (48 + z)) with true by (symmetry; apply isdigit_iff; unfold digit; lia).
    rewrite i64_ok by (unfold i64_min; lia). cbn [bind]. f_equal. lia.
  - rewrite dec_loop_app, <- app_assoc.
    assert (H10 : 2 ^ Z.of_nat (S n) = 2 * 2 ^ Z.of_nat n) by (rewrite Nat2Z.inj_succ, Z.pow_succ_r; lia).
    pose proof (Z.div_mod z 10 ltac:(lia)) as DM. pose proof (Z.mod_pos_bound z 10 ltac:(lia)) as MB.
    rewrite IH; [| | |].
    + cbn [app int_digits]. replace (isdigit (48 + z mod 10)) with true by (symmetry; apply isdigit_iff; unfold digit; lia).
      replace (z / 10 * 10 + (48 + z mod 10 - 48)) with z by lia. rewrite i64_ok by (unfold i64_min; lia). reflexivity.
    + split; [apply Z.div_pos; lia|]. apply Z.le_trans with z; [|lia]. apply Z.div_le_upper_bound; lia.
    + apply Z.div_lt_upper_bound; lia.
    + destruct n; [|lia]. cbn in L. lia.
Qed.
Lemma dec_nat_read z r : 0 <= z <= i64_max -> int_digits 0 (dec_nat z ++ r) = int_digits z r.
Proof.
  intros R. unfold dec_nat. apply dec_loop_read; auto; [|lia].
  rewrite Nat2Z.inj_succ, Z2Nat.id by apply Z.log2_nonneg.
  destruct (Z.eq_dec z 0) as [-> |N]; [cbn; lia|]. apply Z.log2_spec. lia.
Qed.
Lemma dec_loop_digits : forall n z acc, 0 <= z -> Forall digit acc -> Forall digit (dec_loop n z acc).
Proof.
  induction n as [|n IH]; intros z acc L F; cbn [dec_loop]; auto. destruct (Z.ltb_spec z 10).
  - constructor; auto. unfold digit. lia.
  - apply IH; [apply Z.div_pos; lia|]. constructor; auto. unfold digit. pose proof (Z.mod_pos_bound z 10 ltac:(lia)). lia.
Qed.
Lemma dec_nat_digits z : 0 <= z -> exists c l, dec_nat z = c :: l /\ digit c /\ Forall digit l.
Proof.
  intros L. pose proof (dec_loop_digits (S (Z.to_nat (Z.log2 z))) z [] L (Forall_nil _)) as F.
  assert (N : dec_nat z <> []).
  { unfold dec_nat. cbn [dec_loop]. destruct (z <? 10); [discriminate|]. rewrite dec_loop_app. intros Q. apply app_eq_nil in Q. destruct Q. discriminate. }
  unfold dec_nat in *. destruct (dec_loop _ z []) as [|c l]; [congruence|]. inversion F; subst. eauto.
Qed.
Lemma p_unsigned_dec neg z r : 0 <= z <= i64_max -> delim r ->
  p_unsigned neg (dec_nat z ++ r) = Ok (RInt (if neg then - z else z), r).
Proof.
  intros R D. unfold p_unsigned. rewrite dec_nat_read by auto. rewrite int_digits_end by auto. cbn [bind].
  replace (at0 r =? 46) with false by (destruct (delim_at0 r D) as [-> |[-> | ->]]; reflexivity). cbn [bind].
  replace ((at0 r =? 101) || (at0 r =? 69)) with false by (destruct (delim_at0 r D) as [-> |[-> | ->]]; reflexivity). cbn [bind].
  destruct neg; cbn [bind]; auto. rewrite i64_ok; [reflexivity|]. unfold i64_min, i64_max in *. lia.
Qed.
Lemma digit_facts c : digit c -> isdigit c = true /\ isspace c = false /\ c <> 0 /\ c <> 34 /\ c <> 35 /\ c <> 39 /\ c <> 40 /\ c <> 41 /\ c <> 43 /\ c <> 44 /\ c <> 45 /\ c <> 46 /\ c <> 59 /\ c <> 96.
Proof.
  intros D. split; [now apply isdigit_iff|]. unfold digit in D. split; [|lia].
  unfold isspace. destruct (Z.eqb_spec c 32); [lia|]. destruct (Z.leb_spec 9 c), (Z.leb_spec c 13); cbn; auto; lia.
Qed.
Ltac neq := repeat match goal with |- context [?x =? ?y] => destruct (Z.eqb_spec x y); [solve [subst; first [discriminate | congruence | lia]]|]; cbn [andb orb negb] end.

Lemma p_expr_int z r : i64_min < z <= i64_max -> delim r ->
  starts (dec z ++ r) /\ p_expr 1 (dec z ++ r) = Ok (Some (RInt z), r).
Proof.
  intros R D. assert (R0 : 0 <= Z.abs z <= i64_max) by (unfold i64_min, i64_max in *; lia).
  destruct (dec_nat_digits (Z.abs z) ltac:(lia)) as (c & l & E & Dc & Dl).
  pose proof (digit_facts c Dc) as (F1 & F2 & F).
  unfold dec. destruct (Z.ltb_spec z 0).
  - replace (- z) with (Z.abs z) by lia.
    assert (St : starts ((45 :: dec_nat (Z.abs z)) ++ r)) by (unfold starts, at0; cbn; repeat split; try discriminate).
    split; auto. cbn [p_expr]. rewrite (starts_skip _ St).
    cbn [app]. unfold at0, at1 at 1 2 3 4. cbn [nth]. cbn [Z.eqb andb orb Pos.eqb].
    unfold p_number, at0, at1. cbn [nth Z.eqb Pos.eqb]. rewrite E. cbn [app nth]. rewrite F1. cbn [negb adv bind].
    change (c :: l ++ r) with ((c :: l) ++ r). rewrite <- E. rewrite p_unsigned_dec by auto. cbn [bind]. repeat f_equal. lia.
  - replace z with (Z.abs z) by lia. rewrite E.
    assert (St : starts ((c :: l) ++ r)).
    { unfold starts, at0. cbn. rewrite F2. repeat split; try lia. }
    split; auto. cbn [p_expr]. rewrite (starts_skip _ St). unfold at0 at 1 2 3 4 5 6 7 8 9 10. cbn [app nth]. cbn [app] in St.
    neq.
    replace (((at1 (c :: l ++ r) =? 43) || (at1 (c :: l ++ r) =? 45))) with false.
    2:{ symmetry. unfold at1. cbn [nth]. destruct l as [|c2 l]; cbn [app].
        - apply (delim_cases r (fun r => (nth 0 r 0 =? 43) || (nth 0 r 0 =? 45) = false) D); reflexivity.
        - cbn [nth]. inversion Dl; subst. pose proof (digit_facts c2 H2). neq. reflexivity. }
    rewrite andb_false_r. cbn [andb]. unfold p_number, at0. cbn [nth]. neq. rewrite F1. cbn [negb].
    change (c :: l ++ r) with ((c :: l) ++ r). rewrite <- E. rewrite p_unsigned_dec by auto. reflexivity.
Qed.

(** ** Symbols *)
Lemma symchar_iff c : symchar c = true <-> ident_char c.
Proof.
  unfold symchar, ident_char, isalnum, isalpha, isupper, islower, letter. rewrite !orb_true_iff, !andb_true_iff, !Z.leb_le, isdigit_iff.
  assert (M : mem c (bs "!$%&*+-./:<=>?@^_~|") = true <-> In c punct).
  { unfold mem, punct. rewrite existsb_exists. split.
    - intros (x & I & E). apply Z.eqb_eq in E. now subst.
    - intros I. exists c. now rewrite Z.eqb_refl. }
  rewrite M. tauto.
Qed.
Lemma ident_char_facts c : ident_char c -> c <> 0 /\ c <> 92 /\ isspace c = false /\ c <> 34 /\ c <> 35 /\ c <> 39 /\ c <> 40 /\ c <> 41 /\ c <> 44 /\ c <> 59 /\ c <> 96.
Proof.
  unfold ident_char, letter, digit. intros H.
  assert (In c punct -> c = 33 \/ c = 36 \/ c = 37 \/ c = 38 \/ c = 42 \/ c = 43 \/ c = 45 \/ c = 46 \/ c = 47 \/ c = 58 \/ c = 60 \/ c = 61 \/ c = 62 \/ c = 63 \/ c = 64 \/ c = 94 \/ c = 95 \/ c = 126 \/ c = 124).
  { cbn. intuition lia. }
  assert (G : c <> 0 /\ c <> 92 /\ (c <> 32 /\ (c < 9 \/ 13 < c)) /\ c <> 34 /\ c <> 35 /\ c <> 39 /\ c <> 40 /\ c <> 41 /\ c <> 44 /\ c <> 59 /\ c <> 96) by intuition lia.
  destruct G as (? & ? & [G1 G2] & G). split; [auto|]. split; [auto|]. split; [|exact G].
  unfold isspace. destruct (Z.eqb_spec c 32); [congruence|]. destruct (Z.leb_spec 9 c), (Z.leb_spec c 13); cbn; auto; lia.
Qed.
Lemma sym_scan_end r : delim r -> sym_scan r = ([], r).
Proof. intros D. apply (delim_cases r (fun r => sym_scan r = ([], r)) D); reflexivity. Qed.
Lemma sym_scan_ident : forall n r, Forall ident_char n -> delim r -> sym_scan (n ++ r) = (n, r).
Proof.
  induction n as [|c n IH]; intros r F D; [now apply sym_scan_end|]. inversion F as [|? ? Fc Fn]; subst.
  cbn [app sym_scan]. pose proof (ident_char_facts c Fc) as (A & B & _). apply symchar_iff in Fc. neq.
  rewrite Fc, IH by auto. reflexivity.
Qed.
Lemma sym_name_ident : forall n, Forall ident_char n -> sym_name n = n.
Proof.
  induction n as [|c n IH]; intros F; [reflexivity|]. inversion F as [|? ? Fc Fn]; subst. cbn [sym_name].
  pose proof (ident_char_facts c Fc) as (A & B & _). neq. now rewrite IH.
Qed.
Lemma p_symbol_ident n r : Forall ident_char n -> n <> [] -> delim r -> p_symbol (n ++ r) = Ok (Some (RSym n, r)).
Proof.
  intros F N D. destruct n as [|c n]; [congruence|]. unfold p_symbol.
  assert (Q : (at0 ((c :: n) ++ r) =? 35) = false).
  { unfold at0. cbn. inversion F as [|? ? Fc Fn]; subst. apply ident_char_facts in Fc. neq. reflexivity. }
  rewrite Q. cbn [andb]. rewrite sym_scan_ident by auto. now rewrite sym_name_ident by auto.
Qed.
Lemma p_expr_sym n r : identifier n -> delim r ->
  starts (n ++ r) /\ p_expr 1 (n ++ r) = Ok (Some (RSym n), r).
Proof.
  intros (F & N & ND & NC & NB & NDig & NS) D. destruct n as [|c n]; [congruence|].
  inversion F as [|? ? Fc Fn]; subst. pose proof (ident_char_facts c Fc) as (A0 & A92 & Asp & A).
  assert (St : starts ((c :: n) ++ r)).
  { unfold starts, at0. cbn [app nth]. split; [lia|]. split; [auto|]. split; [lia|]. split; [lia|]. split; [lia|].
    intros ->. unfold dot_symbol, at1. cbn [nth]. destruct n as [|c2 n]; [now elim ND|]. cbn [app nth].
    inversion Fn as [|? ? Fc2 _]; subst. assert (c2 <> 124) by (intros ->; eapply NB; reflexivity).
    apply symchar_iff in Fc2. unfold symchar, mem in Fc2. unfold mem. revert Fc2. cbn.
    destruct (isalnum c2); [rewrite orb_true_r; reflexivity|]. cbn. 
    destruct (Z.eqb_spec c2 124); [congruence|]. rewrite !orb_true_iff. intros Q. rewrite !Z.eqb_eq in *. intuition (try discriminate; try lia). }
  split; auto. cbn [p_expr]. rewrite (starts_skip _ St). cbn [app]. change (at0 (c :: n ++ r)) with c.
  assert (N35 : (c =? 35) = false) by (apply Z.eqb_neq; lia). rewrite N35. cbn [andb].
  neq. change (c :: n ++ r) with ((c :: n) ++ r). rewrite p_symbol_ident by auto. cbn [bind].
  destruct (isdigit c) eqn:Dg.
  - apply isdigit_iff in Dg. destruct (NDig c n eq_refl Dg) as [E|E]; injection E as -> ->; unfold at1, at2; cbn [app nth].
    + apply (delim_cases r (fun r => (if (49 =? 49) && ((43 =? 43) || (43 =? 45)) && tok_end (nth 0 r 0) then _ else _) = _) D); reflexivity.
    + apply (delim_cases r (fun r => (if (49 =? 49) && ((45 =? 43) || (45 =? 45)) && tok_end (nth 0 r 0) then _ else _) = _) D); reflexivity.
  - replace (c =? 49) with false by (symmetry; apply Z.eqb_neq; intros ->; discriminate). cbn [andb].
    assert (PN : p_number ((c :: n) ++ r) = Ok None).
    { unfold p_number, at0, at1. cbn [app nth].
      assert (Dn : (c = 43 \/ c = 45) -> isdigit (nth 0 (n ++ r) 0) = false).
      { intros C. destruct n as [|c2 n]; cbn [app].
        - apply (delim_cases r (fun r => isdigit (nth 0 r 0) = false) D); reflexivity.
        - cbn [nth]. destruct (isdigit c2) eqn:Q; auto. apply isdigit_iff in Q. elim (NS _ _ _ eq_refl C Q). }
      destruct (Z.eqb_spec c 45); [rewrite Dn by auto; reflexivity|]. destruct (Z.eqb_spec c 43); [rewrite Dn by auto; reflexivity|].
      rewrite Dg. reflexivity. }
    rewrite PN. reflexivity.
Qed.

(** ** Characters and booleans *)
Lemma alpha_end r : delim r -> alpha_run r = ([], r).
Proof. intros D. apply (delim_cases r (fun r => alpha_run r = ([], r)) D); reflexivity. Qed.
Lemma p_char_read b r : 1 <= b <= 255 -> delim r -> p_char (print_char b ++ r) = Ok (b, r).
Proof.
  intros R D. unfold print_char.
  destruct (Z.eqb_spec b 32) as [-> |N1].
  { unfold p_char. cbn [bs app adv2 adv bind list_ascii_of_string map]. cbn -[alpha_run beq]. cbn [alpha_run]. cbn -[alpha_run beq]. now rewrite alpha_end. }
  destruct (Z.eqb_spec b 10) as [-> |N2].
  { unfold p_char. cbn -[alpha_run beq]. cbn [alpha_run]. cbn -[alpha_run beq]. now rewrite alpha_end. }
  destruct (Z.eqb_spec b 9) as [-> |N3].
  { unfold p_char. cbn -[alpha_run beq]. cbn [alpha_run]. cbn -[alpha_run beq]. now rewrite alpha_end. }
  unfold p_char. cbn [app adv2 adv bind]. unfold at0. cbn [nth]. neq.
  destruct (isspace b); [reflexivity|]. destruct (isalpha b) eqn:A; [|reflexivity].
  cbn [alpha_run]. rewrite A, alpha_end by auto. cbn [map].
  assert (H : forall c1 c2 w, beq [tolower b] (c1 :: c2 :: w) = false) by (intros; cbn; apply andb_false_r).
  unfold bs. cbn [list_ascii_of_string map]. rewrite !H. reflexivity.
Qed.
Lemma p_expr_char b r : 1 <= b <= 255 -> delim r ->
  starts (print_char b ++ r) /\ p_expr 1 (print_char b ++ r) = Ok (Some (RChar b), r).
Proof.
  intros R D. assert (Q : exists t, print_char b = 35 :: 92 :: t).
  { unfold print_char. destruct (b =? 32); [eexists; reflexivity|]. destruct (b =? 10); [eexists; reflexivity|]. destruct (b =? 9); [eexists; reflexivity|]. eauto. }
  pose proof (p_char_read b r R D) as P. destruct Q as (t & E). rewrite E in *. cbn [app] in *.
  assert (St : starts (35 :: 92 :: t ++ r)) by (unfold starts, at0; cbn; repeat split; discriminate).
  split; auto. cbn [p_expr]. rewrite (starts_skip _ St). unfold at0, at1 at 1 2 3. cbn [nth Z.eqb Pos.eqb andb].
  rewrite P. reflexivity.
Qed.
Lemma p_expr_bool (v : bool) r : delim r ->
  starts ((if v then bs "#t" else bs "#f") ++ r) /\ p_expr 1 ((if v then bs "#t" else bs "#f") ++ r) = Ok (Some (RBool v), r).
Proof.
  intros D. destruct v; (split; [unfold starts, at0; cbn; repeat split; discriminate|]);
  match goal with |- p_expr 1 (?x ++ r) = ?y => apply (delim_cases r (fun r => p_expr 1 (x ++ r) = Ok (Some _, r)) D) end; reflexivity.
Qed.

(** ** Strings *)
Definition printable_byte (b : Z) : Prop := 32 <= b <= 126 \/ b = 9 \/ b = 10 \/ b = 13.
Definition back (c : Z) : list Z := if (32 <=? c) && (c <? 127) || (c =? 9) || (c =? 10) || (c =? 13) then [c] else [48 + c / 64; 48 + (c / 8) mod 8; 48 + c mod 8].
Lemma oct_range c : 0 <= c <= 255 -> let x := 48 + c / 64 in let y := 48 + (c / 8) mod 8 in let z := 48 + c mod 8 in
  48 <= x <= 55 /\ 48 <= y <= 55 /\ 48 <= z <= 55.
Proof.
  intros R. cbv zeta. pose proof (Z.div_pos c 64 ltac:(lia) ltac:(lia)). assert (c / 64 < 8) by (apply Z.div_lt_upper_bound; lia).
  pose proof (Z.mod_pos_bound (c / 8) 8 ltac:(lia)). pose proof (Z.mod_pos_bound c 8 ltac:(lia)). lia.
Qed.
Lemma str_byte_cases c : 0 <= c <= 255 ->
  (str_byte c = [c] /\ back c = [c] /\ c <> 92 /\ c <> 34 /\ c <> 0) \/
  (exists e, str_byte c = [92; e] /\ back c = [c] /\ esc_char e = c /\ e <> 0) \/
  (exists x y z, str_byte c = [92; x; y; z] /\ back c = [x; y; z] /\ 48 <= x <= 55 /\ 48 <= y <= 55 /\ 48 <= z <= 55).
Proof.
  intros R. unfold str_byte, back.
  destruct (Z.eqb_spec c 92) as [-> |]; [right; left; exists 92; repeat split; discriminate|].
  destruct (Z.eqb_spec c 34) as [-> |]; [right; left; exists 34; repeat split; discriminate|].
  destruct (Z.eqb_spec c 10) as [-> |]; [right; left; exists 110; repeat split; discriminate|].
  destruct (Z.eqb_spec c 9) as [-> |]; [right; left; exists 116; repeat split; discriminate|].
  destruct (Z.eqb_spec c 13) as [-> |]; [right; left; exists 114; repeat split; discriminate|].
  destruct (Z.leb_spec 32 c), (Z.ltb_spec c 127); cbn [andb orb];
    [left; repeat split; auto; lia| | |];
    right; right; do 3 eexists; (split; [reflexivity|]); (split; [reflexivity|]); now apply oct_range.
Qed.
Lemma str_scan_write : forall s r, Forall (fun b => 0 <= b <= 255) s ->
  str_scan false (flat_map str_byte s ++ 34 :: r) = (flat_map str_byte s, 34 :: r).
Proof.
  induction s as [|c s IH]; intros r F; [reflexivity|]. inversion F as [|? ? Fc Fs]; subst. cbn [flat_map]. rewrite <- app_assoc.
  assert (G : forall x l, x <> 0 -> x <> 92 -> x <> 34 -> str_scan false (x :: l) = let '(b, k) := str_scan false l in (x :: b, k)).
  { intros x l A B C. cbn [str_scan]. neq. reflexivity. }
  destruct (str_byte_cases c Fc) as [(E & _ & A & B & C)|[(e & E & _ & _ & A)|(x & y & z & E & _ & X & Y & Z)]]; rewrite E; cbn [app].
  - rewrite G, IH by auto. reflexivity.
  - cbn [str_scan]. cbn [Z.eqb Pos.eqb]. neq. rewrite IH by auto. reflexivity.
  - cbn [str_scan]. cbn [Z.eqb Pos.eqb]. neq. rewrite IH by auto. reflexivity.
Qed.
Lemma unescape_write : forall s, Forall (fun b => 0 <= b <= 255) s -> unescape false (flat_map str_byte s) = flat_map back s.
Proof.
  induction s as [|c s IH]; intros F; [reflexivity|]. inversion F as [|? ? Fc Fs]; subst. cbn [flat_map].
  destruct (str_byte_cases c Fc) as [(E & G & A & B & C)|[(e & E & G & H & A)|(x & y & z & E & G & X & Y & Z)]]; rewrite E, G; cbn [app].
  - cbn [unescape]. neq. now rewrite IH.
  - cbn [unescape]. cbn [Z.eqb Pos.eqb]. now rewrite IH, H.
  - cbn [unescape]. cbn [Z.eqb Pos.eqb].
    assert (esc_char x = x) as -> by (unfold esc_char; neq; reflexivity). neq. now rewrite IH.
Qed.
Lemma p_string_write s r : Forall (fun b => 0 <= b <= 255) s -> p_string (print_str s ++ r) = Ok (RStr (flat_map back s), r).
Proof.
  intros F. unfold p_string, print_str. cbn [app adv bind]. rewrite <- app_assoc. cbn [app].
  rewrite str_scan_write by auto. cbn. now rewrite unescape_write.
Qed.
Lemma p_expr_str s r : Forall (fun b => 0 <= b <= 255) s ->
  starts (print_str s ++ r) /\ p_expr 1 (print_str s ++ r) = Ok (Some (RStr (flat_map back s)), r).
Proof.
  intros F. assert (St : starts (print_str s ++ r)) by (unfold starts, at0; cbn; repeat split; discriminate).
  split; auto. cbn [p_expr]. rewrite (starts_skip _ St). unfold at0. unfold print_str at 1 2 3 4 5. cbn [app nth Z.eqb Pos.eqb].
  rewrite p_string_write by auto. reflexivity.
Qed.
Lemma back_printable c : printable_byte c -> back c = [c].
Proof.
  intros H. unfold back. replace ((32 <=? c) && (c <? 127) || (c =? 9) || (c =? 10) || (c =? 13)) with true; auto.
  symmetry. rewrite !orb_true_iff, andb_true_iff, Z.leb_le, Z.ltb_lt, !Z.eqb_eq. unfold printable_byte in H. lia.
Qed.
Lemma back_not_printable c : ~ printable_byte c -> exists x y z, back c = [x; y; z].
Proof.
  intros H. unfold back. replace ((32 <=? c) && (c <? 127) || (c =? 9) || (c =? 10) || (c =? 13)) with false; eauto.
  symmetry. apply not_true_iff_false. rewrite !orb_true_iff, andb_true_iff, Z.leb_le, Z.ltb_lt, !Z.eqb_eq. unfold printable_byte in H. lia.
Qed.
Lemma back_all s : printable s -> flat_map back s = s.
Proof. induction 1 as [|c s H _ IH]; [reflexivity|]. cbn [flat_map]. now rewrite (back_printable c H), IH. Qed.
Lemma printable_dec c : printable_byte c \/ ~ printable_byte c.
Proof. unfold printable_byte. lia. Qed.
Lemma back_len s : (length s <= length (flat_map back s))%nat /\ (~ printable s -> (length s < length (flat_map back s))%nat).
Proof.
  induction s as [|c s [A B]]; cbn [flat_map]; [split; [cbn; lia|intros H; elim H; constructor]|].
  rewrite app_length. destruct (printable_dec c) as [P|P].
  - rewrite (back_printable c P). cbn [length]. split; [lia|]. intros N. assert (~ printable s) by (intros Q; apply N; constructor; auto). specialize (B H). lia.
  - destruct (back_not_printable c P) as (x & y & z & ->). cbn [length]. split; intros; lia.
Qed.

(** ** Lists and vectors *)
Section Seq.
Variable pf : dbl -> list Z.
Variables qq uq : bool.
Definition good (d : rdatum) : Prop := forall r, delim r ->
  starts (print pf true qq uq d ++ r) /\ exists n, p_expr n (print pf true qq uq d ++ r) = Ok (Some d, r).
Fixpoint seq (l : list rdatum) : list Z :=
  match l with [] => [] | x :: r => 32 :: print pf true qq uq x ++ seq r end.

Lemma elem_read s d r n : starts s -> p_expr n s = Ok (Some d, r) -> forall m, (n <= m)%nat ->
  (if at0 s =? 39 then do '(x, k) <- p_quote m s; Ok (Some x, k)
   else if at0 s =? 44 then do '(x, k) <- p_unq m s; Ok (Some x, k) else p_expr m s) = Ok (Some d, r) /\
  (if at0 s =? 44 then do '(x, k) <- p_unq m s; Ok (Some x, k) else p_expr m s) = Ok (Some d, r).
Proof.
  intros St E m L. assert (N44 : (at0 s =? 44) = false) by (apply Z.eqb_neq; apply St). rewrite N44.
  pose proof (p_expr_mono _ _ _ _ E L) as E'. split; auto. destruct (at0 s =? 39) eqn:Q; auto.
  destruct n as [|n]; [discriminate|]. cbn [p_expr] in E. rewrite (starts_skip _ St) in E. rewrite Q in E.
  destruct (Z.eqb_spec (at0 s) 0) as [Z|_]; [destruct St; congruence|].
  destruct (p_quote n s) as [[x k]| | | |] eqn:P; try discriminate. cbn in E. injection E as -> ->.
  rewrite (p_quote_mono n m _ _ P) by lia. reflexivity.
Qed.
Lemma delim_seq l e : delim e -> delim (seq l ++ e).
Proof. destruct l; cbn; auto. intros _. right. eauto. Qed.

Lemma elems_read : forall l x tail e r,
  Forall good (x :: l) ->
  (tail = None /\ e = 41 :: r \/ exists t, tail = Some t /\ good t /\ e = bs " . " ++ print pf true qq uq t ++ 41 :: r) ->
  starts (print pf true qq uq x ++ seq l ++ e) /\
  exists n, p_elems n (print pf true qq uq x ++ seq l ++ e) = Ok (x :: l, tail, 41 :: r).
Proof.
  induction l as [|y l IH]; intros x tail e r G T; inversion G as [|? ? Gx Gl]; subst.
  - assert (De : delim e) by (destruct T as [[_ ->]|(t & _ & _ & ->)]; [right; eauto|right; cbn; eauto]).
    cbn [seq app]. destruct (Gx e De) as (St & n & E). split; auto.
    assert (N0 : ((at0 (print pf true qq uq x ++ e) =? 0) || (at0 (print pf true qq uq x ++ e) =? 41)) = false).
    { destruct St as (A & _ & _ & B & _). apply orb_false_iff. split; now apply Z.eqb_neq. }
    destruct T as [[-> ->]|(t & -> & Gt & ->)].
    + exists (S (S n)). cbn [p_elems]. rewrite N0. destruct (elem_read _ _ _ _ St E (S n) ltac:(lia)) as [-> _]. cbn [bind]. reflexivity.
    + destruct (Gt (41 :: r) ltac:(right; eauto)) as (St2 & n2 & E2). exists (S (n + n2)). cbn [p_elems]. rewrite N0.
      destruct (elem_read _ _ _ _ St E (n + n2) ltac:(lia)) as [-> _]. cbn [bind].
      cbn [bs list_ascii_of_string map app]. 
      match goal with |- context [skip (?a :: ?b :: ?c :: ?k)] =>
        change (skip (a :: b :: c :: k)) with (46 :: 32 :: k) end.
      change (dot_symbol (46 :: 32 :: ?k)) with false. cbn [negb andb]. 
      unfold at0 at 1. cbn [nth Z.eqb Pos.eqb andb adv bind]. rewrite (starts_skip_space _ St2).
      destruct (elem_read _ _ _ _ St2 E2 (n + n2) ltac:(lia)) as [_ ->]. cbn [bind]. reflexivity.
  - destruct (IH y tail e r Gl T) as (St2 & n2 & E2).
    cbn [seq app]. rewrite <- !app_assoc.
    assert (De : delim (32 :: print pf true qq uq y ++ seq l ++ e)) by (right; eauto).
    destruct (Gx _ De) as (St & n & E). split; auto. exists (S (n + n2)). cbn [p_elems].
    assert (N0 : ((at0 (print pf true qq uq x ++ 32 :: print pf true qq uq y ++ seq l ++ e) =? 0) || (at0 (print pf true qq uq x ++ 32 :: print pf true qq uq y ++ seq l ++ e) =? 41)) = false).
    { destruct St as (A & _ & _ & B & _). apply orb_false_iff. split; now apply Z.eqb_neq. }
    rewrite N0. destruct (elem_read _ _ _ _ St E (n + n2) ltac:(lia)) as [-> _]. cbn [bind].
    rewrite (starts_skip_space _ St2).
    assert (ND : (at0 (print pf true qq uq y ++ seq l ++ e) =? 46) && negb (dot_symbol (print pf true qq uq y ++ seq l ++ e)) = false).
    { destruct (Z.eqb_spec (at0 (print pf true qq uq y ++ seq l ++ e)) 46) as [Q|]; [|reflexivity]. destruct St2 as (_ & _ & _ & _ & _ & H). now rewrite (H Q). }
    rewrite ND. rewrite (p_elems_mono n2 (n + n2) _ _ E2) by lia. reflexivity.
Qed.
Lemma vec_read : forall l x r, Forall good (x :: l) ->
  starts (print pf true qq uq x ++ seq l ++ 41 :: r) /\
  exists n, p_vec n (print pf true qq uq x ++ seq l ++ 41 :: r) = Ok (x :: l, 41 :: r).
Proof.
  induction l as [|y l IH]; intros x r G; inversion G as [|? ? Gx Gl]; subst.
  - cbn [seq app]. destruct (Gx (41 :: r) ltac:(right; eauto)) as (St & n & E). split; auto. exists (S (S n)). cbn [p_vec].
    assert (N0 : ((at0 (print pf true qq uq x ++ 41 :: r) =? 0) || (at0 (print pf true qq uq x ++ 41 :: r) =? 41)) = false).
    { destruct St as (A & _ & _ & B & _). apply orb_false_iff. split; now apply Z.eqb_neq. }
    rewrite N0. destruct (elem_read _ _ _ _ St E (S n) ltac:(lia)) as [_ ->]. cbn [bind]. reflexivity.
  - destruct (IH y r Gl) as (St2 & n2 & E2).
    cbn [seq app]. rewrite <- !app_assoc.
    assert (De : delim (32 :: print pf true qq uq y ++ seq l ++ 41 :: r)) by (right; eauto).
    destruct (Gx _ De) as (St & n & E). split; auto. exists (S (n + n2)). cbn [p_vec].
    assert (N0 : ((at0 (print pf true qq uq x ++ 32 :: print pf true qq uq y ++ seq l ++ 41 :: r) =? 0) || (at0 (print pf true qq uq x ++ 32 :: print pf true qq uq y ++ seq l ++ 41 :: r) =? 41)) = false).
    { destruct St as (A & _ & _ & B & _). apply orb_false_iff. split; now apply Z.eqb_neq. }
    rewrite N0. destruct (elem_read _ _ _ _ St E (n + n2) ltac:(lia)) as [_ ->]. cbn [bind].
    rewrite (starts_skip_space _ St2). rewrite (p_vec_mono n2 (n + n2) _ _ E2) by lia. reflexivity.
Qed.

(* a parenthesised sequence *)
Lemma paren_read x l tail e r :
  Forall good (x :: l) ->
  (tail = None /\ e = 41 :: r \/ exists t, tail = Some t /\ good t /\ e = bs " . " ++ print pf true qq uq t ++ 41 :: r) ->
  starts (40 :: print pf true qq uq x ++ seq l ++ e) /\
  exists n, p_expr n (40 :: print pf true qq uq x ++ seq l ++ e) = Ok (Some (RList x l tail), r).
Proof.
  intros G T. destruct (elems_read l x tail e r G T) as (St & n & E).
  assert (S40 : starts (40 :: print pf true qq uq x ++ seq l ++ e)) by (unfold starts, at0; cbn [nth]; repeat split; try discriminate).
  split; auto. exists (S n). cbn [p_expr]. rewrite (starts_skip _ S40). unfold at0 at 1 2 3 4. cbn [nth Z.eqb Pos.eqb adv bind].
  rewrite (starts_skip _ St).
  assert (N41 : (at0 (print pf true qq uq x ++ seq l ++ e) =? 41) = false) by (apply Z.eqb_neq; apply St). rewrite N41.
  rewrite E. reflexivity.
Qed.
End Seq.

Lemma print_vec pf wm qq uq x l : print pf wm qq uq (RVec (x :: l)) =
  bs "#(" ++ print pf wm qq uq x ++ (fix go l := match l with [] => [] | x :: r => 32 :: print pf wm qq uq x ++ go r end) l ++ [41].
Proof. reflexivity. Qed.
Lemma go_seq pf qq uq l : (fix go l := match l with [] => [] | x :: r => 32 :: print pf true qq uq x ++ go r end) l = seq pf qq uq l.
Proof. induction l as [|x l IH]; [reflexivity|]. cbn [seq]. now rewrite <- IH. Qed.

(* induction over data *)
Section Ind.
Variable P : rdatum -> Prop.
Hypothesis Hint : forall z, P (RInt z).
Hypothesis Hflo : forall f, P (RFloat f).
Hypothesis Hrat : forall n d, P (RRatio n d).
Hypothesis Hchr : forall b, P (RChar b).
Hypothesis Hboo : forall b, P (RBool b).
Hypothesis Hsym : forall n, P (RSym n).
Hypothesis Hstr : forall s, P (RStr s).
Hypothesis Hnil : P RNil.
Hypothesis Hvec : forall l, Forall P l -> P (RVec l).
Hypothesis Hlst : forall h r t, P h -> Forall P r -> (forall x, t = Some x -> P x) -> P (RList h r t).
Fixpoint rdatum_ind' (d : rdatum) : P d :=
  match d with
  | RInt z => Hint z | RFloat f => Hflo f | RRatio n m => Hrat n m | RChar b => Hchr b
  | RBool b => Hboo b | RSym n => Hsym n | RStr s => Hstr s | RNil => Hnil
  | RVec l => Hvec l ((fix go l := match l return Forall P l with [] => Forall_nil _ | x :: r => Forall_cons _ (rdatum_ind' x) (go r) end) l)
  | RList h r t =>
      Hlst h r t (rdatum_ind' h)
        ((fix go l := match l return Forall P l with [] => Forall_nil _ | x :: r => Forall_cons _ (rdatum_ind' x) (go r) end) r)
        (match t return forall x, t = Some x -> P x with
         | Some y => fun x E => match E in _ = o return match o with Some z => P z | None => True end with eq_refl => rdatum_ind' y end
         | None => fun x E => match E in _ = o return match o with Some z => P z | None => True end with eq_refl => I end
         end)
  end.
End Ind.

Lemma ident_word w : In w [bs "quote"; bs "quasiquote"; bs "unquote"; bs "unquote-splicing"] -> identifier w.
Proof.
  intros H.
  assert (forallb symchar w = true /\ exists c d k, w = c :: d :: k /\ (c = 113 \/ c = 117)) as (F & c & d & k & -> & C).
  { cbn in H. decompose [or] H; subst; try tauto; (split; [reflexivity|]); do 3 eexists; (split; [reflexivity|]); auto. }
  split. { apply Forall_forall. intros x I. apply symchar_iff. rewrite forallb_forall in F. now apply F. }
  split; [discriminate|]. split; [intros Q; injection Q; intros; subst; lia|].
  split; [intros r Q; injection Q; intros; subst; lia|]. split; [intros r Q; injection Q; intros; subst; lia|].
  split; [intros x r Q D; injection Q; intros; subst; unfold digit in D; lia|].
  intros x y r Q D. injection Q; intros; subst; lia.
Qed.
Lemma good_sym pf qq uq n : identifier n -> good pf qq uq (RSym n).
Proof.
  intros I r D. assert (E : print pf true qq uq (RSym n) = n).
  { cbn [print]. destruct I as (_ & N & _ & C & _). destruct n as [|c n]; [congruence|]. cbn. destruct (Z.eqb_spec c 58) as [-> |]; [now elim (C n)|reflexivity]. }
  rewrite E. destruct (p_expr_sym n r I D). eauto.
Qed.
Lemma starts_with_false h w : ~ quote_word h -> In w ["quote"%string; "quasiquote"%string; "unquote"%string; "unquote-splicing"%string] -> starts_with h w = false.
Proof.
  intros N H. destruct h; try reflexivity. cbn. destruct (beq name (bs w)) eqn:E; auto. apply beq_iff in E. subst.
  elim N. unfold quote_word. cbn in H. decompose [or] H; subst; tauto.
Qed.

Lemma plain_good pf : forall d, plain d -> forall qq uq, good pf qq uq d.
Proof.
  induction d as [z|f|a b|b|b|n|s| |l IH|h l t IHh IHl IHt] using rdatum_ind'; intros P qq uq; inversion P; subst.
  - intros r D. cbn [print]. destruct (p_expr_int z r); eauto.
  - intros r D. cbn [print]. destruct (p_expr_char b r); eauto.
  - intros r D. cbn [print]. destruct (p_expr_bool b r); eauto.
  - now apply good_sym.
  - intros r D. cbn [print]. assert (B : Forall (fun b => 0 <= b <= 255) s) by (eapply Forall_impl; [|eassumption]; cbn; intros; lia).
    destruct (p_expr_str s r B) as [S1 E]. rewrite back_all in E by auto. eauto.
  - intros r D. cbn [print]. split; [unfold starts, at0; cbn; repeat split; discriminate|]. exists 1%nat. reflexivity.
  - (* vectors *)
    intros r D. assert (G : Forall (good pf qq uq) l).
    { apply Forall_forall. intros x I. rewrite Forall_forall in IH. apply IH; auto. rewrite Forall_forall in H0. auto. }
    destruct l as [|x l].
    + split; [unfold starts, at0; cbn; repeat split; discriminate|]. exists 1%nat. reflexivity.
    + rewrite print_vec, go_seq. cbn [bs list_ascii_of_string map app]. rewrite <- !app_assoc. cbn [app].
      destruct (vec_read pf qq uq l x r G) as (St & n & E).
      match goal with |- starts ?s /\ _ => assert (SV : starts s) by (unfold starts, at0; cbn; repeat split; discriminate) end.
      split; auto. exists (S n). cbn [p_expr]. rewrite (starts_skip _ SV). unfold at0 at 1 2 3 4 5 6 7 8, at1. cbn -[print seq skip_ws p_vec p_expr p_quote p_unq p_elems p_symbol p_number p_brace p_string].
      cbn [adv2 adv bind]. rewrite (starts_skip _ St).
      assert (N41 : (at0 (print pf true qq uq x ++ seq pf qq uq l ++ 41 :: r) =? 41) = false) by (apply Z.eqb_neq; apply St).
      rewrite N41, E. reflexivity.
  - (* proper lists *)
    intros r D. cbn [print].
    rewrite !starts_with_false by (auto; cbn; tauto). rewrite go_seq.
    assert (G : Forall (good pf qq uq) (h :: l)).
    { constructor; auto. apply Forall_forall. intros x I. rewrite Forall_forall in IHl. apply IHl; auto. rewrite Forall_forall in H4. auto. }
    destruct (paren_read pf qq uq h l None (41 :: r) r G ltac:(now left)) as (St & n & E).
    cbn [app]. rewrite <- !app_assoc. cbn [app]. eauto.
  - (* dotted lists *)
    rename t0 into t. intros r D. cbn [print].
    rewrite !starts_with_false by (auto; cbn; tauto). rewrite !go_seq.
    assert (G : Forall (good pf qq uq) (h :: l)).
    { constructor; auto. apply Forall_forall. intros x I. rewrite Forall_forall in IHl. apply IHl; auto. rewrite Forall_forall in H4. auto. }
    assert (Gt : good pf qq uq t) by (eapply IHt; eauto).
    destruct (paren_read pf qq uq h l (Some t) (bs " . " ++ print pf true qq uq t ++ 41 :: r) r G) as (St & n & E).
    { right. exists t. auto. }
    assert (Eq : match t with RList h2 r2 None => 32 :: print pf true qq uq h2 ++ (fix go l := match l with [] => [] | x :: r => 32 :: print pf true qq uq x ++ go r end) r2 ++ [41] | _ => bs " . " ++ print pf true qq uq t ++ [41] end = bs " . " ++ print pf true qq uq t ++ [41]).
    { destruct t as [| | | | | | | | |h2 r2 [t2|]]; auto. elim H6. now exists h2, r2. }
    match goal with |- context [?a ++ match t with _ => _ end] => idtac end.
    match goal with |- starts ((40 :: ?a ++ ?b ++ ?m) ++ r) /\ _ => replace m with (bs " . " ++ print pf true qq uq t ++ [41]) by (symmetry; exact Eq) end.
    cbn [app]. rewrite <- !app_assoc. cbn [app]. eauto.
  - (* quote forms *)
    rename d into x. assert (GX : forall q u, good pf q u x) by (intros; inversion IHl; subst; auto).
    assert (PW : forall q u w, In w ["quote"%string; "quasiquote"%string; "unquote"%string; "unquote-splicing"%string] ->
       forall r, delim r -> starts (40 :: (bs w ++ 32 :: print pf true q u x) ++ 41 :: r) /\
       exists n, p_expr n (40 :: (bs w ++ 32 :: print pf true q u x) ++ 41 :: r) = Ok (Some (RList (RSym (bs w)) [x] None), r)).
    { intros q u w I r D.
      assert (IW : identifier (bs w)) by (apply ident_word; cbn in I |- *; decompose [or] I; subst; tauto).
      destruct (paren_read pf q u (RSym (bs w)) [x] None (41 :: r) r) as (St & n & E); [|now left|].
      { constructor; [now apply good_sym|]. constructor; auto. }
      assert (EW : print pf true q u (RSym (bs w)) = bs w).
      { cbn in I. decompose [or] I; subst; try reflexivity; tauto. }
      rewrite EW in *. cbn [seq] in *. rewrite app_nil_r in *. cbn [app] in *. rewrite <- app_assoc. cbn [app]. eauto. }
    intros r D. destruct H1 as [-> |[-> |[-> | ->]]]; cbn [print starts_with];
    repeat match goal with |- context [beq ?a ?b] => let v := eval vm_compute in (beq a b) in change (beq a b) with v; cbn iota end.
    + destruct (qq && negb uq).
      * (* 'x *)
        cbn [app].
        match goal with |- starts ?s /\ _ => assert (SQ : starts s) by (unfold starts, at0; cbn; repeat split; discriminate) end.
        split; auto. destruct (GX qq uq r D) as (St & n & E). exists (S (S n)). cbn [p_expr]. rewrite (starts_skip _ SQ).
        unfold at0 at 1 2. cbn [nth Z.eqb Pos.eqb]. cbn [p_quote adv bind].
        destruct ((at0 (print pf true qq uq x ++ r) =? 35) && (at1 (print pf true qq uq x ++ r) =? 92)) eqn:EC.
        -- (* x is a character *)
           destruct n as [|n]; [discriminate|]. cbn [p_expr] in E. rewrite (starts_skip _ St) in E.
           apply andb_true_iff in EC. destruct EC as [E0 E1]. apply Z.eqb_eq in E0. apply Z.eqb_eq in E1. rewrite E0, E1 in E.
           cbn [Z.eqb Pos.eqb andb] in E. destruct (p_char (print pf true qq uq x ++ r)) as [[b k]| | | |]; try discriminate.
           cbn in E. injection E as <- <-. reflexivity.
        -- destruct (elem_read _ _ _ _ St E n (le_n _)) as [_ ->]. reflexivity.
      * destruct (PW qq uq "quote"%string ltac:(cbn; tauto) r D) as (St & n & E). assert (EQ : forall P r, (bs "(quote" ++ (32 :: P) ++ [41]) ++ r = 40 :: (bs "quote" ++ 32 :: P) ++ 41 :: r) by (intros; rewrite <- !app_assoc; reflexivity). rewrite EQ. eauto.
    + destruct (PW true uq "quasiquote"%string ltac:(cbn; tauto) r D) as (St & n & E). assert (EQ : forall P r, (bs "(quasiquote " ++ P ++ [41]) ++ r = 40 :: (bs "quasiquote" ++ 32 :: P) ++ 41 :: r) by (intros; rewrite <- !app_assoc; reflexivity). rewrite EQ. eauto.
    + destruct (PW qq true "unquote"%string ltac:(cbn; tauto) r D) as (St & n & E). assert (EQ : forall P r, (bs "(unquote" ++ (32 :: P) ++ [41]) ++ r = 40 :: (bs "unquote" ++ 32 :: P) ++ 41 :: r) by (intros; rewrite <- !app_assoc; reflexivity). rewrite EQ. eauto.
    + destruct (PW qq uq "unquote-splicing"%string ltac:(cbn; tauto) r D) as (St & n & E). assert (EQ : forall P r, (bs "(unquote-splicing" ++ (32 :: P) ++ [41]) ++ r = 40 :: (bs "unquote-splicing" ++ 32 :: P) ++ 41 :: r) by (intros; rewrite <- !app_assoc; reflexivity). rewrite EQ. eauto.
Qed.
