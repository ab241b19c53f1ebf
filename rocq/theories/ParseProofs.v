(** The reader terminates, makes progress, never steps over the end of its text
    and is independent of the model's call bound. *)
From Coq Require Import Lia String SpecFloat.
From Verif Require Import Base NumModel HeapModel StringModel ParseModel ParseSpec.
Local Open Scope list_scope.

Definition suffix (s r : list Z) : Prop := exists pre, s = pre ++ r.
Lemma suffix_refl s : suffix s s. Proof. now exists []. Qed.
Lemma suffix_trans a b c : suffix a b -> suffix b c -> suffix a c.
Proof. intros [x ->] [y ->]. exists (x ++ y). now rewrite app_assoc. Qed.
Lemma suffix_cons c s r : suffix s r -> suffix (c :: s) r.
Proof. intros [x ->]. now exists (c :: x). Qed.
Lemma consumed_cons c s r : suffix s r -> consumed (c :: s) r.
Proof. intros [x ->]. exists (c :: x). split; [discriminate|reflexivity]. Qed.
Lemma consumed_suffix s r : consumed s r -> suffix s r.
Proof. intros (p & _ & E). now exists p. Qed.
Lemma consumed_r a b c : consumed a b -> suffix b c -> consumed a c.
Proof. intros (x & N & ->) [y ->]. exists (x ++ y). split; [destruct x; [congruence|discriminate]|now rewrite app_assoc]. Qed.
Lemma consumed_l a b c : suffix a b -> consumed b c -> consumed a c.
Proof. intros [x ->] (y & N & ->). exists (x ++ y). split; [destruct x; [exact N|discriminate]|now rewrite app_assoc]. Qed.
Lemma suffix_len s r : suffix s r -> (length r <= length s)%nat.
Proof. intros [x ->]. rewrite app_length. lia. Qed.
Lemma consumed_len s r : consumed s r -> (length r < length s)%nat.
Proof. intros (x & N & ->). rewrite app_length. destruct x; [congruence|cbn; lia]. Qed.
Lemma huge_suffix s r : suffix s r -> huge_numeral r -> huge_numeral s.
Proof. intros [x ->] (p & d & q & -> & D & V). exists (x ++ p), d, q. now rewrite app_assoc. Qed.

Lemma at0_cons s : at0 s <> 0 -> exists c r, s = c :: r /\ at0 s = c.
Proof. destruct s as [|c r]; cbn; [congruence|]. intros _. now exists c, r. Qed.
Lemma at1_cons s : at1 s <> 0 -> exists c e r, s = c :: e :: r /\ at1 s = e.
Proof. destruct s as [|c [|e r]]; cbn; try congruence. intros _. now exists c, e, r. Qed.

Lemma skip_ws_suffix : forall s b, suffix s (skip_ws b s).
Proof.
  induction s as [|c r IH]; intros b; cbn [skip_ws]; [apply suffix_refl|].
  destruct b; [destruct (c =? 0); [apply suffix_refl|destruct (c =? 10)]|
    destruct (isspace c); [|destruct (c =? 59)]]; try apply suffix_refl; apply suffix_cons, IH.
Qed.

(** What one run of a reading function guarantees: [P] of a result, undefined
    behaviour only on a huge numeral in [s], [Fuel] only when [n < b]. *)
Definition okr {A} (n b : nat) (s : list Z) (P : A -> Prop) (r : res A) : Prop :=
  match r with
  | Ok a => P a
  | Err => True
  | Abort => False
  | UB => huge_numeral s
  | Fuel => (n < b)%nat
  end.
Lemma okr_bind {A B} n b s (P : A -> Prop) (Q : B -> Prop) m (f : A -> res B) :
  okr n b s P m -> (forall a, P a -> okr n b s Q (f a)) -> okr n b s Q (bind m f).
Proof. destruct m; cbn; auto. Qed.
Lemma okr_weak {A} n b s n' b' s' (P Q : A -> Prop) m :
  okr n' b' s' P m -> suffix s s' -> ((n' < b')%nat -> (n < b)%nat) -> (forall a, P a -> Q a) -> okr n b s Q m.
Proof. destruct m; cbn; auto. intros. eapply huge_suffix; eauto. Qed.

Lemma adv_ok n b s : at0 s <> 0 -> okr n b s (consumed s) (adv s).
Proof. intros N. destruct (at0_cons s N) as (c & r & -> & _). cbn. apply consumed_cons, suffix_refl. Qed.
Lemma adv2_ok n b s : at1 s <> 0 -> okr n b s (consumed s) (adv2 s).
Proof. intros N. destruct (at1_cons s N) as (c & e & r & -> & _). cbn. apply consumed_cons, suffix_cons, suffix_refl. Qed.

Lemma isdigit_iff c : isdigit c = true <-> digit c.
Proof. unfold isdigit, digit. rewrite andb_true_iff, !Z.leb_le. lia. Qed.
Lemma value_app : forall ds acc c, value acc (ds ++ [c]) = value acc ds * 10 + (c - 48).
Proof. induction ds as [|d r IH]; intros; cbn [value app]; auto. Qed.

Lemma int_digits_ok n b : forall s ds acc, Forall digit ds -> value 0 ds = acc -> 0 <= acc <= i64_max ->
  okr n b (ds ++ s) (fun '(v, r) => suffix s r /\ 0 <= v <= i64_max /\ (isdigit (at0 s) = true -> consumed s r)) (int_digits acc s).
Proof.
  induction s as [|c r IH]; intros ds acc D V R; cbn [int_digits].
  - cbn [okr]. split; [apply suffix_refl|]. split; auto. discriminate.
  - destruct (isdigit c) eqn:E.
    + assert (Dc : digit c) by now apply isdigit_iff. unfold digit in Dc.
      unfold i64, in64. destruct (Z.leb_spec i64_min (acc * 10 + (c - 48))); [|unfold i64_min in *; lia].
      destruct (Z.leb_spec (acc * 10 + (c - 48)) i64_max); cbn [andb bind].
      * specialize (IH (ds ++ [c]) (acc * 10 + (c - 48))).
        rewrite <- app_assoc in IH. cbn [app] in IH.
        eapply okr_weak; [apply IH| apply suffix_refl | auto |].
        -- apply Forall_app. split; auto.
        -- rewrite value_app. congruence.
        -- lia.
        -- intros [v k] (F & G & _). split; [now apply suffix_cons|]. split; auto. intros _. now apply consumed_cons.
      * cbn [okr]. exists [], (ds ++ [c]), r. cbn [app]. rewrite <- app_assoc. split; auto. split.
        -- apply Forall_app. split; auto.
        -- rewrite value_app, V. lia.
    + cbn [okr]. split; [apply suffix_refl|]. split; auto. cbn. unfold at0. cbn. rewrite E. discriminate.
Qed.
Lemma int_digits_ok0 n b s : okr n b s (fun '(v, r) => suffix s r /\ 0 <= v <= i64_max /\ (isdigit (at0 s) = true -> consumed s r)) (int_digits 0 s).
Proof. apply (int_digits_ok n b s [] 0); [constructor|reflexivity|unfold i64_max; lia]. Qed.
Lemma frac_suffix : forall s f d, suffix s (snd (frac_digits f d s)).
Proof.
  induction s as [|c r IH]; intros; cbn [frac_digits]; [apply suffix_refl|].
  destruct (isdigit c); [apply suffix_cons, IH|apply suffix_refl].
Qed.
Lemma nz s k : (at0 s =? k) = true -> k <> 0 -> at0 s <> 0.
Proof. rewrite Z.eqb_eq. congruence. Qed.
Lemma nz1 s k : (at1 s =? k) = true -> k <> 0 -> at1 s <> 0.
Proof. rewrite Z.eqb_eq. congruence. Qed.
Lemma digit_nz s : isdigit (at0 s) = true -> at0 s <> 0.
Proof. intros E Q. rewrite Q in E. discriminate. Qed.

Lemma p_unsigned_ok n b neg s : isdigit (at0 s) = true ->
  okr n b s (fun '(d, r) => consumed s r) (p_unsigned neg s).
Proof.
  intros D. unfold p_unsigned.
  eapply okr_bind; [apply int_digits_ok0|]. intros [ip s1] (_ & R & C). specialize (C D).
  eapply okr_bind with (P := fun '(_, _, s2) => suffix s1 s2).
  { destruct (at0 s1 =? 46) eqn:E.
    - eapply okr_bind; [eapply okr_weak; [apply adv_ok; eapply nz; eauto; discriminate|now apply consumed_suffix|intros X; exact X|intros a X; exact X]|].
      intros s' Cs'. pose proof (frac_suffix s' dzero (d_of_Z 1)) as F. destruct (frac_digits dzero (d_of_Z 1) s') as [[fr dv] s'']. cbn in *.
      eapply suffix_trans; [apply consumed_suffix; eauto|auto].
    - cbn. apply suffix_refl. }
  intros [[isf1 fv1] s2] S2.
  eapply okr_bind with (P := fun '(_, _, s3) => suffix s1 s3).
  { destruct ((at0 s2 =? 101) || (at0 s2 =? 69)) eqn:E.
    - eapply okr_bind; [eapply okr_weak; [apply (adv_ok n b s2); apply orb_true_iff in E; destruct E as [E|E]; eapply nz; eauto; discriminate|eapply suffix_trans; [apply consumed_suffix; eauto|auto]|intros X; exact X|intros a X; exact X]|].
      intros s' Cs'. apply consumed_suffix in Cs'.
      eapply okr_bind with (P := suffix s').
      { destruct ((at0 s' =? 45) || (at0 s' =? 43)) eqn:E2; [|cbn; apply suffix_refl].
        eapply okr_weak; [apply (adv_ok n b s'); apply orb_true_iff in E2; destruct E2 as [E2|E2]; eapply nz; eauto; discriminate|eapply suffix_trans; [apply consumed_suffix; eauto|eapply suffix_trans; eauto]|intros X; exact X|intros a X; now apply consumed_suffix]. }
      intros s'' S''. destruct (isdigit (at0 s'')) eqn:D2; cbn [negb]; [|exact I].
      eapply okr_bind; [eapply okr_weak; [apply (int_digits_ok0 n b s'')| |intros X; exact X|intros a X; exact X]|].
      { eapply suffix_trans; [apply consumed_suffix; eauto|]. eapply suffix_trans; [eauto|]. eapply suffix_trans; eauto. }
      intros [ex s3] (S3 & _ & _). cbn. do 3 (eapply suffix_trans; [eauto|]). auto.
    - cbn. auto. }
  intros [[isf2 fv2] s3] S3. destruct isf2; [cbn; eapply consumed_r; eauto|].
  destruct neg; cbn [bind].
  - unfold i64, in64. destruct (Z.leb_spec i64_min (- ip)); [|unfold i64_min, i64_max in *; lia].
    destruct (Z.leb_spec (- ip) i64_max); [|unfold i64_max in *; lia]. cbn. eapply consumed_r; eauto.
  - cbn. eapply consumed_r; eauto.
Qed.
Definition opt_consumed {A} (s : list Z) (o : option (A * list Z)) : Prop :=
  match o with Some (_, r) => consumed s r | None => True end.
Lemma p_number_ok n b s : okr n b s (opt_consumed s) (p_number s).
Proof.
  assert (H : forall neg r, suffix s r -> isdigit (at0 r) = true ->
    okr n b s (opt_consumed s) (do x <- p_unsigned neg r; Ok (Some x))).
  { intros neg r Sr D. eapply okr_bind; [eapply okr_weak; [apply (p_unsigned_ok n b neg r D)|exact Sr|intros X; exact X|intros a X; exact X]|].
    intros [d k] C. cbn. eapply consumed_l; eauto. }
  unfold p_number. destruct (at0 s =? 45) eqn:E1; [|destruct (at0 s =? 43) eqn:E2].
  - destruct (isdigit (at1 s)) eqn:D; cbn [negb]; [|exact I].
    destruct s as [|c [|e r]]; try discriminate. cbn [adv bind]. apply H; [apply suffix_cons, suffix_refl|exact D].
  - destruct (isdigit (at1 s)) eqn:D; cbn [negb]; [|exact I].
    destruct s as [|c [|e r]]; try discriminate. cbn [adv bind]. apply H; [apply suffix_cons, suffix_refl|exact D].
  - destruct (isdigit (at0 s)) eqn:D; cbn [negb]; [|exact I]. apply H; [apply suffix_refl|exact D].
Qed.
Lemma alpha_suffix : forall s, suffix s (snd (alpha_run s)).
Proof.
  induction s as [|c r IH]; cbn [alpha_run]; [apply suffix_refl|].
  destruct (isalpha c); [|apply suffix_refl]. destruct (alpha_run r) as [nm k]. cbn in *. now apply suffix_cons.
Qed.
Lemma p_char_ok n b s : at1 s <> 0 -> okr n b s (fun '(_, r) => consumed s r) (p_char s).
Proof.
  intros N. unfold p_char. eapply okr_bind; [now apply adv2_ok|]. intros r C.
  destruct (Z.eqb_spec (at0 r) 0); [exact I|].
  assert (H : okr n b s (fun '(_, k) => consumed s k) (do r' <- adv r; Ok (at0 r, r'))).
  { eapply okr_bind; [eapply okr_weak; [apply (adv_ok n b r); auto|now apply consumed_suffix|intros X; exact X|intros a X; exact X]|].
    intros k K. cbn. eapply consumed_r; eauto. now apply consumed_suffix. }
  destruct (isspace (at0 r)); auto. destruct (isalpha (at0 r)); auto.
  pose proof (alpha_suffix r) as A. destruct (alpha_run r) as [nm k]. cbn in A.
  repeat match goal with |- okr _ _ _ _ (if ?c then _ else _) => destruct c end; auto; cbn; eapply consumed_r; eauto.
Qed.
Lemma str_scan_suffix : forall s e, suffix s (snd (str_scan e s)).
Proof.
  induction s as [|c r IH]; intros e; cbn [str_scan]; [apply suffix_refl|].
  destruct (c =? 0); [apply suffix_refl|].
  destruct e; [|destruct (c =? 92); [|destruct (c =? 34)]].
  - specialize (IH false). destruct (str_scan false r). cbn in *. now apply suffix_cons.
  - specialize (IH true). destruct (str_scan true r). cbn in *. now apply suffix_cons.
  - apply suffix_refl.
  - specialize (IH false). destruct (str_scan false r). cbn in *. now apply suffix_cons.
Qed.
Lemma p_string_ok n b s : at0 s <> 0 -> okr n b s (fun '(_, r) => consumed s r) (p_string s).
Proof.
  intros N. unfold p_string. eapply okr_bind; [now apply adv_ok|]. intros r C.
  pose proof (str_scan_suffix r false) as F. destruct (str_scan false r) as [body k]. cbn in F.
  destruct (at0 k =? 34) eqn:E; cbn [negb]; [|exact I].
  eapply okr_bind; [eapply okr_weak; [apply (adv_ok n b k); eapply nz; eauto; discriminate|eapply suffix_trans; [apply consumed_suffix; eauto|auto]|intros X; exact X|intros a X; exact X]|].
  intros k' K. cbn. eapply consumed_r; [eauto|]. eapply suffix_trans; eauto. now apply consumed_suffix.
Qed.
Lemma sym_scan_suffix : forall m s, (length s <= m)%nat ->
  let '(raw, k) := sym_scan s in suffix s k /\ (raw <> [] -> consumed s k).
Proof.
  induction m as [|m IH]; intros [|c r] L; cbn [sym_scan]; try (split; [apply suffix_refl|congruence]).
  - cbn in L. lia.
  - cbn in L. assert (Hr : forall q, (length q <= length r)%nat -> let '(raw, k) := sym_scan q in suffix q k /\ (raw <> [] -> consumed q k)).
    { intros q Hq. apply IH. lia. }
    destruct (c =? 0); [split; [apply suffix_refl|congruence]|].
    destruct (c =? 92).
    + destruct r as [|c2 r2]; [split; [apply suffix_cons, suffix_refl|intros _; apply consumed_cons, suffix_refl]|].
      destruct (esc_ok c2).
      * specialize (Hr r2). cbn in Hr. specialize (Hr ltac:(lia)). destruct (sym_scan r2) as [raw k]. destruct Hr as [F _].
        split; [now apply suffix_cons, suffix_cons|]. intros _. now apply consumed_cons, suffix_cons.
      * specialize (Hr (c2 :: r2) ltac:(lia)). destruct (sym_scan (c2 :: r2)) as [raw k]. destruct Hr as [F _].
        split; [now apply suffix_cons|]. intros _. now apply consumed_cons.
    + destruct (symchar c); [|split; [apply suffix_refl|congruence]].
      specialize (Hr r ltac:(lia)). destruct (sym_scan r) as [raw k]. destruct Hr as [F _].
      split; [now apply suffix_cons|]. intros _. now apply consumed_cons.
Qed.
Lemma p_symbol_ok n b s : okr n b s (opt_consumed s) (p_symbol s).
Proof.
  unfold p_symbol.
  assert (H : forall v k, (at1 s =? k) = true -> k <> 0 -> okr n b s (opt_consumed s) (do r <- adv2 s; Ok (Some (RBool v, r)))).
  { intros v k E K. eapply okr_bind; [apply adv2_ok; eapply nz1; eauto|]. intros a C. exact C. }
  destruct ((at0 s =? 35) && (at1 s =? 116) && tok_end (at2 s)) eqn:E1.
  { rewrite !andb_true_iff in E1. destruct E1 as [[_ E1] _]. eapply H; eauto. discriminate. }
  destruct ((at0 s =? 35) && (at1 s =? 102) && tok_end (at2 s)) eqn:E2.
  { rewrite !andb_true_iff in E2. destruct E2 as [[_ E2] _]. eapply H; eauto. discriminate. }
  pose proof (sym_scan_suffix _ s (Nat.le_refl _)) as F. destruct (sym_scan s) as [[|x raw] k]; cbn; auto.
  apply F. discriminate.
Qed.
Lemma brace_suffix : forall s d nm k, brace_scan d s = Some (nm, k) -> suffix s k /\ at0 k <> 0.
Proof.
  induction s as [|c r IH]; intros d nm k; cbn [brace_scan]; [discriminate|].
  destruct (Z.eqb_spec c 0); [discriminate|].
  destruct (if c =? 123 then S d else if c =? 125 then pred d else d) as [|d'].
  - intros [= <- <-]. split; [apply suffix_refl|auto].
  - destruct (brace_scan (S d') r) as [[nm' k']|] eqn:E; [|discriminate]. intros [= <- <-].
    destruct (IH _ _ _ E). split; [now apply suffix_cons|auto].
Qed.
Lemma p_brace_ok n b s : at1 s <> 0 -> okr n b s (fun '(_, r) => consumed s r) (p_brace s).
Proof.
  intros N. unfold p_brace. eapply okr_bind; [now apply adv2_ok|]. intros r C.
  destruct (brace_scan 1 r) as [[nm k]|] eqn:E; [|exact I]. destruct (brace_suffix _ _ _ _ E) as [F G].
  eapply okr_bind; [eapply okr_weak; [apply (adv_ok n b k); auto|eapply suffix_trans; [apply consumed_suffix; eauto|auto]|intros X; exact X|intros a X; exact X]|].
  intros k1 C1. destruct (at0 k1 =? 35) eqn:E1; cbn [negb]; [|exact I].
  assert (S1 : suffix s k1) by (eapply suffix_trans; [apply consumed_suffix; eauto|eapply suffix_trans; eauto; now apply consumed_suffix]).
  eapply okr_bind; [eapply okr_weak; [apply (adv_ok n b k1); eapply nz; eauto; discriminate|exact S1|intros X; exact X|intros a X; exact X]|].
  intros k2 C2. cbn. eapply consumed_l; eauto.
Qed.

(** The five mutually recursive functions at once. *)
Definition inv (n : nat) : Prop :=
  (forall s, okr n (3 * length s + 2) s (fun '(d, r) => match d with Some _ => consumed s r | None => r = skip s /\ at0 r = 0 end) (p_expr n s)) /\
  (forall s, at0 s <> 0 -> okr n (3 * length s + 1) s (fun '(_, r) => consumed s r) (p_quote n s)) /\
  (forall s, at0 s <> 0 -> okr n (3 * length s + 1) s (fun '(_, r) => consumed s r) (p_unq n s)) /\
  (forall s, okr n (3 * length s + 3) s (fun '(_, r) => suffix s r) (p_elems n s)) /\
  (forall s, okr n (3 * length s + 3) s (fun '(_, r) => suffix s r) (p_vec n s)).

Lemma okr_opt n b s n' b' s' (m : res (rdatum * list Z)) :
  okr n' b' s' (fun '(_, r) => consumed s' r) m -> suffix s s' -> ((n' < b')%nat -> (n < b)%nat) ->
  okr n b s (fun '(d, r) => match d with Some _ => consumed s r | None => False end)
    (do '(d, r) <- m; Ok (Some d, r)).
Proof.
  intros H F L. eapply okr_bind; [eapply okr_weak; [exact H|exact F|exact L|intros a X; exact X]|].
  intros [d r] C. cbn. eapply consumed_l; eauto.
Qed.
Lemma okr_imp {A} n b s (P Q : A -> Prop) m : okr n b s P m -> (forall a, P a -> Q a) -> okr n b s Q m.
Proof. intros. eapply okr_weak; eauto. apply suffix_refl. Qed.

Lemma at1_0 s : at1 s <> 0 -> s <> []. Proof. destruct s; cbn; congruence. Qed.

Lemma inv_all : forall n, inv n.
Proof.
  induction n as [|n (IE & IQ & IU & IL & IV)].
  { unfold inv. repeat split; intros; cbn; lia. }
  (* the shapes "an unquote or an expression", from a text shorter than s *)
  assert (HUE : forall b s r, suffix s r -> (3 * length r + 2 < b)%nat ->
    okr (S n) b s (fun '(d, k) => match d with Some _ => consumed r k | None => True end)
      (if at0 r =? 44 then do '(x, k) <- p_unq n r; Ok (Some x, k) else p_expr n r)).
  { intros b s r F L. destruct (at0 r =? 44) eqn:E.
    - eapply okr_bind; [eapply okr_weak; [apply (IU r); eapply nz; eauto; discriminate|exact F|intros X; cbn; lia|intros a X; exact X]|].
      intros [d k] C. exact C.
    - eapply okr_weak; [apply (IE r)|exact F|intros X; cbn; lia|]. intros [[d|] k]; auto. }
  unfold inv. split; [|split; [|split; [|split]]].
  - (* p_expr *)
    intros s0. cbn [p_expr]. set (s := skip s0).
    assert (F0 : suffix s0 s) by apply skip_ws_suffix.
    pose proof (suffix_len _ _ F0) as L0.
    destruct (Z.eqb_spec (at0 s) 0) as [Z0|N0]; [cbn; auto|].
    destruct (at0_cons s N0) as (c & t & Es & Ec).
    assert (Lt : (length s = S (length t))%nat) by (rewrite Es; reflexivity).
    assert (Hst : consumed s0 t) by (eapply consumed_l; [exact F0|rewrite Es; apply consumed_cons, suffix_refl]).
    pose (Q := fun '(d, r) => match d : option rdatum with Some _ => consumed s0 r | None => r = skip s0 /\ at0 r = 0 end).
    change (fun '(d, r) => match d with Some _ => consumed s0 r | None => r = skip s0 /\ at0 r = 0 end) with Q.
    assert (HOPT : forall m : res (rdatum * list Z), okr (S n) (3 * length s0 + 2) s (fun '(_, r) => consumed s r) m ->
       okr (S n) (3 * length s0 + 2) s0 Q (do '(d, r) <- m; Ok (Some d, r))).
    { intros m H. eapply okr_imp; [eapply okr_opt; [exact H|exact F0|auto]|]. intros [[d|] r]; cbn; tauto. }
    assert (HADV : okr (S n) (3 * length s0 + 2) s0 (fun r => r = t) (adv s)) by (rewrite Es; cbn; reflexivity).
    destruct (at0 s =? 39).
    { eapply okr_imp; [eapply okr_opt; [apply (IQ s N0)|exact F0|intros X; cbn; lia]|]. intros [[d|] r]; cbn; tauto. }
    destruct (at0 s =? 96).
    { eapply okr_bind; [exact HADV|]. intros r ->.
      eapply okr_bind; [apply HUE; [apply consumed_suffix; exact Hst|lia]|].
      intros [[d|] k] C; [|exact I]. cbn. eapply consumed_r; [exact Hst|]. now apply consumed_suffix. }
    destruct (at0 s =? 40).
    { eapply okr_bind; [exact HADV|]. intros r ->. cbv zeta.
      pose proof (skip_ws_suffix t false) as Ft. pose proof (suffix_len _ _ Ft) as Lf.
      assert (Cst : consumed s0 (skip t)) by (eapply consumed_r; eauto).
      destruct (at0 (skip t) =? 41) eqn:E41.
      { eapply okr_bind; [eapply okr_weak; [apply (adv_ok (S n) (3 * length s0 + 2) (skip t)); eapply nz; eauto; discriminate|now apply consumed_suffix|auto|intros a X; exact X]|].
        intros k C. cbn. eapply consumed_r; [exact Cst|]. now apply consumed_suffix. }
      eapply okr_bind; [eapply okr_weak; [apply (IL (skip t))|now apply consumed_suffix|intros X; cbn; lia|intros a X; exact X]|].
      intros [[els tl] k] S1. destruct (at0 k =? 41) eqn:Ek; cbn [negb]; [|exact I].
      eapply okr_bind; [eapply okr_weak; [apply (adv_ok (S n) (3 * length s0 + 2) k); eapply nz; eauto; discriminate|eapply suffix_trans; [apply consumed_suffix; exact Cst|exact S1]|auto|intros a X; exact X]|].
      intros k' C. cbn. eapply consumed_r; [exact Cst|]. eapply suffix_trans; [exact S1|]. now apply consumed_suffix. }
    destruct (at0 s =? 34).
    { apply HOPT. now apply p_string_ok. }
    destruct ((at0 s =? 35) && (at1 s =? 58)) eqn:EK.
    { apply andb_true_iff in EK. destruct EK as [_ EK].
      eapply okr_bind; [eapply okr_weak; [apply (adv2_ok (S n) (3 * length s0 + 2) s); eapply nz1; eauto; discriminate|exact F0|auto|intros a X; exact X]|].
      intros r C. eapply okr_bind; [eapply okr_weak; [apply (p_symbol_ok (S n) (3 * length s0 + 2) r)|eapply suffix_trans; [exact F0|now apply consumed_suffix]|auto|intros a X; exact X]|].
      intros [[d k]|] Co; [|exact I]. cbn in *. eapply consumed_l; [exact F0|]. eapply consumed_l; [apply consumed_suffix; exact C|exact Co]. }
    destruct ((at0 s =? 35) && (at1 s =? 123)) eqn:EB.
    { apply andb_true_iff in EB. destruct EB as [_ EB]. apply HOPT. apply p_brace_ok. eapply nz1; eauto; discriminate. }
    destruct ((at0 s =? 35) && (at1 s =? 92)) eqn:EC.
    { apply andb_true_iff in EC. destruct EC as [_ EC].
      eapply okr_bind; [eapply okr_weak; [apply (p_char_ok (S n) (3 * length s0 + 2) s); eapply nz1; eauto; discriminate|exact F0|auto|intros a X; exact X]|].
      intros [x r] C. cbn. eapply consumed_l; eauto. }
    destruct ((at0 s =? 35) && (at1 s =? 40)) eqn:EV.
    { apply andb_true_iff in EV. destruct EV as [_ EV].
      eapply okr_bind; [eapply okr_weak; [apply (adv2_ok (S n) (3 * length s0 + 2) s); eapply nz1; eauto; discriminate|exact F0|auto|intros a X; exact X]|].
      intros r C. cbv zeta.
      pose proof (skip_ws_suffix r false) as Ft. pose proof (suffix_len _ _ Ft) as Lf. pose proof (consumed_len _ _ C) as Lc.
      assert (Cst : consumed s0 (skip r)) by (eapply consumed_l; [exact F0|eapply consumed_r; eauto]).
      destruct (at0 (skip r) =? 41) eqn:E41.
      { eapply okr_bind; [eapply okr_weak; [apply (adv_ok (S n) (3 * length s0 + 2) (skip r)); eapply nz; eauto; discriminate|now apply consumed_suffix|auto|intros a X; exact X]|].
        intros k Ck. cbn. eapply consumed_r; [exact Cst|]. now apply consumed_suffix. }
      eapply okr_bind; [eapply okr_weak; [apply (IV (skip r))|now apply consumed_suffix|intros X; cbn; lia|intros a X; exact X]|].
      intros [els k] S1. destruct (at0 k =? 41) eqn:Ek; cbn [negb]; [|exact I].
      eapply okr_bind; [eapply okr_weak; [apply (adv_ok (S n) (3 * length s0 + 2) k); eapply nz; eauto; discriminate|eapply suffix_trans; [apply consumed_suffix; exact Cst|exact S1]|auto|intros a X; exact X]|].
      intros k' Ck. cbn. eapply consumed_r; [exact Cst|]. eapply suffix_trans; [exact S1|]. now apply consumed_suffix. }
    cbv zeta.
    assert (HS : forall e, okr (S n) (3 * length s0 + 2) s0 Q e -> okr (S n) (3 * length s0 + 2) s0 Q
       (do y <- p_symbol s; match y with Some (d, r) => Ok (Some d, r) | None => e end)).
    { intros e He. eapply okr_bind; [eapply okr_weak; [apply (p_symbol_ok (S n) (3 * length s0 + 2) s)|exact F0|auto|intros a X; exact X]|].
      intros [[d k]|] Co; auto. cbn in *. eapply consumed_l; eauto. }
    assert (HN : okr (S n) (3 * length s0 + 2) s0 Q
       (do x <- p_number s; match x with Some (d, r) => Ok (Some d, r) | None => do y <- p_symbol s; match y with Some (d, r) => Ok (Some d, r) | None => Err end end)).
    { eapply okr_bind; [eapply okr_weak; [apply (p_number_ok (S n) (3 * length s0 + 2) s)|exact F0|auto|intros a X; exact X]|].
      intros [[d k]|] Co; [cbn in *; eapply consumed_l; eauto|]. apply HS. exact I. }
    destruct ((at0 s =? 49) && ((at1 s =? 43) || (at1 s =? 45)) && tok_end (at2 s)); [apply HS|]; exact HN.
  - (* p_quote *)
    intros s N0. cbn [p_quote]. destruct (at0_cons s N0) as (c & t & -> & _). cbn [adv bind length].
    destruct ((at0 t =? 35) && (at1 t =? 92)) eqn:EC.
    { apply andb_true_iff in EC. destruct EC as [_ EC].
      eapply okr_bind; [eapply okr_weak; [apply (p_char_ok (S n) (3 * S (length t) + 1) t); eapply nz1; eauto; discriminate|apply suffix_cons, suffix_refl|auto|intros a X; exact X]|].
      intros [x r] C. cbn. apply consumed_cons. now apply consumed_suffix. }
    eapply okr_bind; [apply (HUE _ (c :: t) t); [apply suffix_cons, suffix_refl|lia]|].
    intros [[d|] k] C; [|exact I]. cbn. apply consumed_cons. now apply consumed_suffix.
  - (* p_unq *)
    intros s N0. cbn [p_unq]. destruct (at0_cons s N0) as (c & t & -> & _).
    destruct (at1 (c :: t) =? 64) eqn:E.
    { destruct t as [|e t]; [discriminate|]. cbn [adv2 adv bind length].
      eapply okr_bind; [eapply okr_weak; [apply (IE t)|apply suffix_cons, suffix_cons, suffix_refl|intros X; cbn; lia|intros a X; exact X]|].
      intros [[d|] k] C; [|exact I]. cbn. apply consumed_cons, suffix_cons. now apply consumed_suffix. }
    cbn [adv bind length]. cbv zeta. clear E.
    pose proof (skip_ws_suffix t false) as Ft. pose proof (suffix_len _ _ Ft) as Lf.
    assert (Fc : suffix (c :: t) (skip t)) by now apply suffix_cons.
    destruct (at0 (skip t) =? 39) eqn:E1.
    { eapply okr_bind; [eapply okr_weak; [apply (IQ (skip t)); eapply nz; eauto; discriminate|exact Fc|intros X; cbn; lia|intros a X; exact X]|].
      intros [d k] C. cbn. apply consumed_cons. eapply suffix_trans; [exact Ft|]. now apply consumed_suffix. }
    destruct (at0 (skip t) =? 44) eqn:E2.
    { eapply okr_bind; [eapply okr_weak; [apply (IU (skip t)); eapply nz; eauto; discriminate|exact Fc|intros X; cbn; lia|intros a X; exact X]|].
      intros [d k] C. cbn. apply consumed_cons. eapply suffix_trans; [exact Ft|]. now apply consumed_suffix. }
    eapply okr_bind; [eapply okr_weak; [apply (IE (skip t))|exact Fc|intros X; cbn; lia|intros a X; exact X]|].
    intros [[d|] k] C; [|exact I]. cbn. apply consumed_cons. eapply suffix_trans; [exact Ft|]. now apply consumed_suffix.
  - (* p_elems *)
    intros s. cbn [p_elems]. destruct ((at0 s =? 0) || (at0 s =? 41)) eqn:E0; [cbn; apply suffix_refl|].
    apply orb_false_iff in E0. destruct E0 as [E0 _]. apply Z.eqb_neq in E0.
    eapply okr_bind with (P := fun '(d, r) => match d : option rdatum with Some _ => consumed s r | None => True end).
    { destruct (at0 s =? 39).
      - eapply okr_imp; [eapply okr_opt; [apply (IQ s E0)|apply suffix_refl|intros X; cbn; lia]|]. intros [[d|] r]; cbn; tauto.
      - destruct (at0 s =? 44).
        + eapply okr_imp; [eapply okr_opt; [apply (IU s E0)|apply suffix_refl|intros X; cbn; lia]|]. intros [[d|] r]; cbn; tauto.
        + eapply okr_weak; [apply (IE s)|apply suffix_refl|intros X; cbn; lia|]. intros [[d|] r]; cbn; tauto. }
    intros [[d|] s1] C; [|exact I]. cbv zeta.
    assert (C2 : consumed s (skip s1)) by (eapply consumed_r; [exact C|apply skip_ws_suffix]).
    pose proof (consumed_len _ _ C2) as L2.
    destruct ((at0 (skip s1) =? 46) && negb (dot_symbol (skip s1))) eqn:ED.
    + apply andb_true_iff in ED. destruct ED as [ED _].
      eapply okr_bind; [eapply okr_weak; [apply (adv_ok (S n) (3 * length s + 3) (skip s1)); eapply nz; eauto; discriminate|now apply consumed_suffix|auto|intros a X; exact X]|].
      intros s3 C3. pose proof (skip_ws_suffix s3 false) as F3. pose proof (suffix_len _ _ F3) as L3. pose proof (consumed_len _ _ C3) as L4.
      assert (F4 : suffix s (skip s3)).
      { eapply suffix_trans; [apply consumed_suffix; exact C2|]. eapply suffix_trans; [apply consumed_suffix; exact C3|exact F3]. }
      eapply okr_bind; [apply HUE; [exact F4|lia]|].
      intros [[e|] k] Ck; [|exact I]. cbn. eapply suffix_trans; [exact F4|]. eapply suffix_trans; [apply consumed_suffix; exact Ck|apply skip_ws_suffix].
    + eapply okr_bind; [eapply okr_weak; [apply (IL (skip s1))|now apply consumed_suffix|intros X; cbn; lia|intros a X; exact X]|].
      intros [[els tl] s3] F. cbn. eapply suffix_trans; [apply consumed_suffix; exact C2|exact F].
  - (* p_vec *)
    intros s. cbn [p_vec]. destruct ((at0 s =? 0) || (at0 s =? 41)) eqn:E0; [cbn; apply suffix_refl|].
    apply orb_false_iff in E0. destruct E0 as [E0 _]. apply Z.eqb_neq in E0.
    eapply okr_bind with (P := fun '(d, r) => match d : option rdatum with Some _ => consumed s r | None => True end).
    { destruct (at0 s =? 44).
      - eapply okr_imp; [eapply okr_opt; [apply (IU s E0)|apply suffix_refl|intros X; cbn; lia]|]. intros [[d|] r]; cbn; tauto.
      - eapply okr_weak; [apply (IE s)|apply suffix_refl|intros X; cbn; lia|]. intros [[d|] r]; cbn; tauto. }
    intros [[d|] s1] C; [|exact I].
    assert (C2 : consumed s (skip s1)) by (eapply consumed_r; [exact C|apply skip_ws_suffix]).
    pose proof (consumed_len _ _ C2) as L2.
    eapply okr_bind; [eapply okr_weak; [apply (IV (skip s1))|now apply consumed_suffix|intros X; cbn; lia|intros a X; exact X]|].
    intros [els k] F. cbn. eapply suffix_trans; [apply consumed_suffix; exact C2|exact F].
Qed.

(** More call depth never changes a result. *)
Definition le_res {A} (a b : res A) : Prop := a = Fuel \/ a = b.
Lemma le_refl {A} (a : res A) : le_res a a. Proof. now right. Qed.
Lemma le_bind {A B} (m m' : res A) (f f' : A -> res B) :
  le_res m m' -> (forall a, le_res (f a) (f' a)) -> le_res (bind m f) (bind m' f').
Proof. intros [-> | ->] H; [now left|]. destruct m'; cbn; try apply le_refl. apply H. Qed.
Ltac mono :=
  repeat first
   [ apply le_refl
   | match goal with
     | H : forall s, le_res (?f _ s) _ |- le_res (?f _ _) _ => apply H
     | |- le_res (bind _ _) _ => apply le_bind; [|intros]
     | |- le_res (if ?c then _ else _) _ => destruct c
     | |- le_res (match ?x with _ => _ end) _ => destruct x
     end ].
Lemma mono_all : forall n,
  (forall s, le_res (p_expr n s) (p_expr (S n) s)) /\ (forall s, le_res (p_quote n s) (p_quote (S n) s)) /\
  (forall s, le_res (p_unq n s) (p_unq (S n) s)) /\ (forall s, le_res (p_elems n s) (p_elems (S n) s)) /\
  (forall s, le_res (p_vec n s) (p_vec (S n) s)).
Proof.
  induction n as [|n (IE & IQ & IU & IL & IV)]; [repeat split; intros; now left|].
  split; [|split; [|split; [|split]]]; intros s.
  - change (p_expr (S n) s) with (p_expr (S n) s). cbn [p_expr]. fold p_expr p_quote p_unq p_elems p_vec. cbv zeta. mono.
  - cbn [p_quote]. mono.
  - cbn [p_unq]. cbv zeta. mono.
  - cbn [p_elems]. cbv zeta. mono.
  - cbn [p_vec]. mono.
Qed.
